(** Rounding errors of log-probabilities, shifted softmax and one-vs-rest rows. *)
From Coq Require Import Reals Lra Lia ZArith Bool List.
From Flocq Require Import Core BinarySingleNaN Relative Plus_error.
From Verif Require Import Model.Py Model.Arith Model.F64 Model.XR Model.Base Model.NaiveBayes Model.FastText Proofs.Lib Proofs.Laws Proofs.Round Proofs.Unit Proofs.Arrays2 Proofs.CRLibm Proofs.RealLib Proofs.SumErr Proofs.DotErr Proofs.NormErr Proofs.LinearProba Proofs.Boosting Proofs.FastText Proofs.ExpErr.
From Verif Require Import Spec.Matrix Spec.Reals Spec.Rounding Spec.Libm.
Import ListNotations.
Local Open Scope R_scope.

Lemma small_u : u <= / 1048576.
Proof. unfold u. change (/ 1048576) with (bpow radix2 (-20)). apply bpow_le. lia. Qed.
Lemma tiny_u : tiny <= u.
Proof. unfold u, tiny. apply bpow_le. lia. Qed.

Lemma exp_ge : forall x, 1 + x <= exp x. Proof. intro. apply exp_ineq1_le. Qed.
Lemma exp_small : forall x, Rabs x <= / 2 -> Rabs (exp x - 1) <= 2 * Rabs x.
Proof.
  intros x H. pose proof (exp_ge x) as G. destruct (Rle_dec 0 x) as [P|P].
  - rewrite (Rabs_pos_eq x) in * by auto. pose proof (exp_ge (- x)) as G'. rewrite exp_Ropp in G'. pose proof (exp_pos x).
    assert (exp x * (1 - x) <= 1). { apply Rle_trans with (exp x * / exp x); [apply Rmult_le_compat_l; lra|right; field; lra]. }
    rewrite Rabs_pos_eq by lra. nra.
  - rewrite (Rabs_left x) in * by lra. assert (exp x <= 1) by (rewrite <- exp_0; apply exp_le; lra). rewrite Rabs_left1 by lra. lra.
Qed.
Lemma ln_small : forall x, Rabs x <= / 4 -> Rabs (ln (1 + x)) <= 4 / 3 * Rabs x.
Proof.
  intros x H. assert (P : 0 < 1 + x) by (apply Rabs_le_inv in H; lra).
  assert (U : ln (1 + x) <= x). { pose proof (exp_ge (ln (1 + x))) as E. rewrite exp_ln in E by auto. lra. }
  assert (V : - ln (1 + x) <= / (1 + x) - 1). { pose proof (exp_ge (- ln (1 + x))) as E. rewrite exp_Ropp, exp_ln in E by auto. lra. }
  assert (W : / (1 + x) - 1 = - x / (1 + x)) by (field; lra). rewrite W in V.
  assert (Z : - x / (1 + x) <= 4 / 3 * Rabs x).
  { apply Rmult_le_reg_r with (1 + x); auto. unfold Rdiv at 1. rewrite Rmult_assoc, Rinv_l by lra. rewrite Rmult_1_r. unfold Rabs in *. destruct (Rcase_abs x); nra. }
  apply Rabs_le. pose proof (Rle_abs x). pose proof (Rabs_pos x). lra.
Qed.
Lemma ln_le : forall x y, 0 < x -> x <= y -> ln x <= ln y.
Proof. intros x y H [G| ->]; [left; apply ln_increasing; auto|right; reflexivity]. Qed.
Lemma ln2_le : ln 2 <= 3 / 4.
Proof.
  rewrite <- (ln_exp (3 / 4)). apply ln_le; [lra|].
  apply Rle_trans with ((1 + 3 / 32) ^ 8); [cbn; lra|]. replace (3 / 4) with (INR 8 * (3 / 32)) by (cbn; lra).
  assert (Q : exp (INR 8 * (3 / 32)) = exp (3 / 32) ^ 8). { replace (INR 8 * (3 / 32)) with (3/32+(3/32+(3/32+(3/32+(3/32+(3/32+(3/32+3/32))))))) by (cbn; lra). rewrite !exp_plus. cbn [pow]. ring. }
  rewrite Q. apply pow_incr. split; [lra|]. apply exp_ge.
Qed.
Lemma ln_bpow : forall e, ln (bpow radix2 e) = IZR e * ln 2.
Proof. intro e. rewrite bpow_exp. change (IZR radix2) with 2. apply ln_exp. Qed.
Lemma ln2_pos : 0 < ln 2.
Proof. rewrite <- ln_1. apply ln_increasing; lra. Qed.

Lemma in_Rsum : forall l x, Forall (fun x => 0 <= x) l -> In x l -> x <= Rsum l.
Proof.
  intros l x H. revert x. induction H as [|a l Pa PX IH]; intros x Hx; [contradiction|].
  destruct Hx as [->|Hx]; cbn [Rsum]; [pose proof (Rsum_nonneg l PX); lra|specialize (IH x Hx); lra].
Qed.
(** log of the sum *)
Lemma lse_err : forall m d dl (l : list (F64 m)), exp_accurate m d -> log_accurate m dl -> 0 <= d <= / 16 -> 0 <= dl <= / 4096 -> l <> [] -> (Z.of_nat (length l) <= 2 ^ 48)%Z ->
  Forall (fun x : f64 => is_finite x = true /\ Rabs (real x) <= 600) l ->
  exists z : f64, logsumexp l = Ok z /\ is_finite z = true /\ Rabs (real z) <= 758 /\
    Rabs (real z - ln (Rsum (map exp (reals l)))) <= 4 / 3 * d + 757 * dl + (8 / 3 * INR (length l) + 2) * ulp1.
Proof.
  intros m d dl l HA HL Hd Hdl N L H. destruct (exps_ok m d l HA H) as (es & E & Le & F). pose proof u_pos as UP. pose proof small_u as US.
  set (xs := map exp (reals l)) in *.
  assert (SB : bpow radix2 (-960) <= Rsum xs <= bpow radix2 1008).
  { apply exp_sum; [destruct l; [congruence|discriminate]|unfold reals; rewrite map_length; auto|]. unfold reals. apply Forall_map. eapply Forall_impl; [|exact H]. cbn. tauto. }
  assert (E0 : 0 < Rsum xs) by (pose proof (bpow_gt_0 radix2 (-960)); lra).
  assert (XE : forall x, In x xs -> x <= Rsum xs).
  { assert (PX : Forall (fun x => 0 <= x) xs) by (unfold xs; apply Forall_map, Forall_forall; intros; left; apply exp_pos).
    intros x Hx. apply in_Rsum; auto. }
  assert (HS : Rabs (Rsum (map real es) - Rsum xs) <= (d + u) * Rsum xs).
  { clear - F. induction F as [|x e xs es (_ & _ & _ & H) HE IH]; cbn [map Rsum]; [rewrite Rmult_0_r, Rminus_0_r, Rabs_R0; lra|].
    replace (real e + Rsum (map real es) - (x + Rsum xs)) with ((real e - x) + (Rsum (map real es) - Rsum xs)) by ring.
    eapply Rle_trans; [apply Rabs_triang|]. lra. }
  destruct (normalise_err xs es (d + u)) as (Fs & Ps & Bs & _); auto; try lra; try (rewrite Le; lia).
  { split; auto. eapply Rle_trans; [apply SB|]. apply bpow_le. lia. }
  { apply Forall2_nth_error. apply Forall2_nth_error in F. destruct F as [L' F]. split; auto. intros i x e Hx He. destruct (F i x e Hx He) as (A & B & C & D). repeat split; auto.
    eapply Rle_trans; [exact D|]. apply Rmult_le_compat_l; [lra|]. apply XE. eapply nth_error_In; eauto. }
  set (s := fold_left f_add es (f_ofZE 0 0)) in *. rewrite Le in Bs. set (S := Rsum xs) in *.
  assert (K : 0 <= INR (length l) * ulp1 <= / 16).
  { pose proof (pos_INR (length l)). pose proof (INR_le_bpow (length l) 48 ltac:(lia) L). split; [rewrite ulp1_u; nra|]. apply Rle_trans with (bpow radix2 48 * ulp1); [apply Rmult_le_compat_r; [rewrite ulp1_u; lra|lra]|].
    change (/ 16) with (bpow radix2 (-4)). unfold ulp1. rewrite <- bpow_plus. apply bpow_le. lia. }
  rewrite Rmult_plus_distr_r, Rmult_assoc. set (k := INR (length l) * ulp1) in *.
  set (g := real s / S - 1). assert (G : Rabs g <= d + u + 2 * k).
  { unfold g. apply Rabs_le. split; apply Rmult_le_reg_r with S; auto; replace ((real s / S - 1) * S) with (real s - S) by (field; lra); lra. }
  assert (LS : ln (real s) = ln S + ln (1 + g)). { rewrite <- ln_mult; [f_equal; unfold g; field; lra|auto|]. apply Rabs_le_inv in G. lra. }
  assert (LG : Rabs (ln (1 + g)) <= 4 / 3 * (d + u + 2 * k)). { eapply Rle_trans; [apply ln_small; lra|]. lra. }
  assert (LB : Rabs (ln S) <= 756).
  { pose proof ln2_le. pose proof ln2_pos. apply Rabs_le. split.
    - apply Rle_trans with (ln (bpow radix2 (-960))); [rewrite ln_bpow; lra|]. apply ln_le; [apply bpow_gt_0|apply SB].
    - apply Rle_trans with (ln (bpow radix2 1008)); [|rewrite ln_bpow; lra]. apply ln_le; [auto|apply SB]. }
  assert (LT : Rabs (ln (real s)) <= 757). { rewrite LS. eapply Rle_trans; [apply Rabs_triang|]. lra. }
  destruct (HL s Fs Ps) as [Fz Bz]. change (B2R s) with (real s) in Bz. change (B2R (m_log m s)) with (real (m_log m s)) in Bz. set (z := m_log m s) in *.
  pose proof tiny_u as TU. change (bpow radix2 (-1074)) with tiny in Bz.
  assert (Bz' : Rabs (real z - ln (real s)) <= 757 * dl + u). { eapply Rle_trans; [exact Bz|]. assert (dl * Rabs (ln (real s)) <= dl * 757) by (apply Rmult_le_compat_l; lra). lra. }
  exists z. split.
  { unfold logsumexp. change (num (F64 m)) with f64 in *. rewrite E. cbn [bind]. change (@psum (F64 m) es) with s. unfold safe_log.
    change (@eqb (F64 m) s zero) with (f_eqb s (f_ofZE 0 0)). change (@ltb (F64 m) s zero) with (f_ltb s (f_ofZE 0 0)).
    rewrite f_eqb_x, f_ltb_x, b2x_zero, (b2x_fin s Fs). cbn [x_eqb x_ltb]. change (B2R s) with (real s).
    replace (Reqb (real s) 0) with false by (symmetry; apply Reqb_neq; lra). replace (Rltb (real s) 0) with false by (symmetry; apply not_true_iff_false; rewrite Rltb_lt; lra).
    change (@logv (F64 m) s) with (f_log m s). unfold z. clear - Fs Ps. clearbody s. destruct s as [?|[]| |[] mx ex Hm]; try discriminate; cbn [f_log]; auto; exfalso.
    - cbn in Ps. lra.
    - unfold real in Ps. cbn [B2R] in Ps. apply gt_0_F2R in Ps. cbn in Ps. lia. }
  split; auto. assert (T : Rabs (real z - ln S) <= 4 / 3 * d + 757 * dl + (8 / 3 * k + 2 * ulp1)).
  { replace (real z - ln S) with ((real z - ln (real s)) + ln (1 + g)) by (rewrite LS; ring). eapply Rle_trans; [apply Rabs_triang|]. rewrite ulp1_u. lra. }
  split; auto. replace (real z) with ((real z - ln (real s)) + ln (real s)) by ring. eapply Rle_trans; [apply Rabs_triang|]. lra.
Qed.

(** Log-probabilities and probabilities computed from them. *)
Lemma logproba_err : forall m d dl (l : list (F64 m)) (z x : F64 m), 0 <= d <= / 16 -> 0 <= dl <= / 4096 -> (Z.of_nat (length l) <= 2 ^ 48)%Z -> Rsum (map exp (reals l)) > 0 ->
  is_finite z = true -> Rabs (real z) <= 758 -> Rabs (real z - ln (Rsum (map exp (reals l)))) <= 4 / 3 * d + 757 * dl + (8 / 3 * INR (length l) + 2) * ulp1 ->
  is_finite x = true -> Rabs (real x) <= 600 ->
  is_finite (sub x z) = true /\ Rabs (real (sub x z) - ln (exp (real x) / Rsum (map exp (reals l)))) <= 2 * d + 757 * dl + (3 * INR (length l) + 682) * ulp1.
Proof.
  intros m d dl l z x Hd Hdl L S0 Fz Bz Ez Fx Bx. pose proof u_pos as UP. pose proof small_u as US. set (S := Rsum (map exp (reals l))) in *.
  destruct (sub_fits x z Fx Fz) as (F & e & He & R).
  { apply Rle_trans with (bpow radix2 12); [change (bpow radix2 12) with 4096; nra|apply bpow_le; lia]. }
  split; [exact F|]. change (sub x z) with (f_sub x z). rewrite R. unfold Rdiv. rewrite ln_mult, ln_exp, ln_Rinv; [|lra|apply exp_pos|apply Rinv_0_lt_compat; lra].
  replace ((real x - real z) * (1 + e) - (real x + - ln S)) with (- (real z - ln S) + (real x - real z) * e) by ring.
  eapply Rle_trans; [apply Rabs_triang|]. rewrite Rabs_Ropp, Rabs_mult.
  assert (Rabs (real x - real z) <= 1358). { unfold Rminus. eapply Rle_trans; [apply Rabs_triang|]. rewrite Rabs_Ropp. lra. }
  assert (Rabs (real x - real z) * Rabs e <= 1358 * u) by (apply Rmult_le_compat; auto using Rabs_pos).
  pose proof (pos_INR (length l)). rewrite ulp1_u in *. assert (0 <= INR (length l) * u) by nra. nra.
Qed.

Lemma log_space_err : forall m d dl (l : list (F64 m)) (z x : F64 m), exp_accurate m d -> 0 <= d <= / 16 -> 0 <= dl <= / 4096 -> l <> [] -> (Z.of_nat (length l) <= 2 ^ 46)%Z ->
  is_finite z = true -> Rabs (real z) <= 758 -> Rabs (real z - ln (Rsum (map exp (reals l)))) <= 4 / 3 * d + 757 * dl + (8 / 3 * INR (length l) + 2) * ulp1 ->
  is_finite x = true -> Rabs (real x) <= 600 -> In (real x) (reals l) ->
  exists p : f64, safe_exp (sub x z) = Ok p /\ is_finite p = true /\ 0 <= real p /\
    Rabs (real p - exp (real x) / Rsum (map exp (reals l))) <= (6 * d + 1514 * dl + (6 * INR (length l) + 1364) * ulp1) * (exp (real x) / Rsum (map exp (reals l))) + tiny.
Proof.
  intros m d dl l z x HA Hd Hdl NE L Fz Bz Ez Fx Bx IX.
  assert (S0 : Rsum (map exp (reals l)) > 0) by (apply Rsum_pos_lt; [destruct l; [congruence|discriminate]|apply Forall_map, Forall_forall; intros; apply exp_pos]).
  destruct (logproba_err m d dl l z x) as [Fw Bw]; auto; try lia.
  set (w := sub x z) in *. set (S := Rsum (map exp (reals l))) in *. set (y := exp (real x) / S) in *. assert (Y0 : 0 < y) by (unfold y; apply Rdiv_lt_0_compat; [apply exp_pos|lra]).
  assert (Y1 : y <= 1).
  { apply Rmult_le_reg_r with S; [lra|]. unfold y, Rdiv. rewrite Rmult_assoc, Rinv_l by lra. rewrite Rmult_1_r, Rmult_1_l. unfold S. clear - IX. induction (reals l) as [|a r IH]; [contradiction|].
    cbn [map Rsum]. assert (0 <= Rsum (map exp r)) by (apply Rsum_nonneg, Forall_map, Forall_forall; intros; left; apply exp_pos). pose proof (exp_pos a). destruct IX as [->|IX]; [lra|specialize (IH IX); lra]. }
  pose proof u_pos as UP. pose proof small_u as US. set (n := INR (length l)) in *. assert (N0 : 0 <= n) by apply pos_INR.
  assert (K : n * ulp1 <= / 64).
  { pose proof (INR_le_bpow (length l) 46 ltac:(lia) L). fold n in H. apply Rle_trans with (bpow radix2 46 * ulp1); [apply Rmult_le_compat_r; [rewrite ulp1_u; lra|lra]|].
    change (/ 64) with (bpow radix2 (-6)). unfold ulp1. rewrite <- bpow_plus. apply bpow_le. lia. }
  set (err := 2 * d + 757 * dl + (3 * n + 682) * ulp1) in *. assert (E0 : 0 <= err <= / 2).
  { unfold err. rewrite ulp1_u in *. split; [|nra]. assert (0 <= n * u) by nra. nra. }
  assert (LY : ln y <= 0). { rewrite <- ln_1. apply ln_le; lra. }
  destruct (HA w Fw) as (p & Ep & Fp & Pp & Bp). { change (B2R w) with (real w). apply Rabs_le_inv in Bw. lra. }
  exists p. split. { pose proof (safe_exp_fin m w Fw) as Q. rewrite Ep in Q. exact Q. } split; auto. split; auto.
  change (B2R p) with (real p) in Bp. change (B2R w) with (real w) in Bp. change (bpow radix2 (-1074)) with tiny in Bp.
  set (t := real w - ln y) in *. assert (EW : exp (real w) = y * exp t). { replace (real w) with (ln y + t) by (unfold t; ring). rewrite exp_plus, exp_ln by auto. reflexivity. }
  pose proof (exp_small t ltac:(lra)) as ES. rewrite EW in Bp.
  assert (ET : Rabs (exp t - 1) <= 2 * err) by lra. apply Rabs_le_inv in ET.
  replace (real p - y) with ((real p - y * exp t) + y * (exp t - 1)) by ring. eapply Rle_trans; [apply Rabs_triang|].
  assert (A1 : Rabs (y * (exp t - 1)) <= y * (2 * err)). { rewrite Rabs_mult, (Rabs_pos_eq y) by lra. apply Rmult_le_compat_l; [lra|]. apply Rabs_le. lra. }
  assert (A2 : d * (y * exp t) <= d * y * 2). { rewrite Rmult_assoc. apply Rmult_le_compat_l; [lra|]. apply Rmult_le_compat_l; lra. }
  replace (6 * d + 1514 * dl + (6 * n + 1364) * ulp1) with (2 * err + 2 * d) by (unfold err; ring). lra.
Qed.

(** The shifted softmax of fastText. *)
Lemma exp_shift : forall t d, t <= 0 -> Rabs d <= u -> Rabs (exp (t * (1 + d)) - exp t) <= 4 * u.
Proof.
  intros t d Ht Hd. pose proof u_pos as UP. pose proof small_u as US. pose proof (exp_pos t) as EP.
  assert (W : Rabs (t * d) <= - t * u) by (rewrite Rabs_mult, (Rabs_left1 t) by auto; apply Rmult_le_compat_l; lra).
  destruct (Rle_dec (- t * u) (/ 2)) as [S|S].
  - rewrite Rmult_plus_distr_l, Rmult_1_r, exp_plus. replace (exp t * exp (t * d) - exp t) with (exp t * (exp (t * d) - 1)) by ring.
    rewrite Rabs_mult, (Rabs_pos_eq (exp t)) by lra. pose proof (exp_small (t * d) ltac:(lra)) as E.
    apply Rle_trans with (exp t * (2 * (- t * u))); [apply Rmult_le_compat_l; lra|].
    pose proof (exp_ge (- t)) as G. rewrite exp_Ropp in G.
    assert (exp t * (1 - t) <= 1). { apply Rle_trans with (exp t * / exp t); [apply Rmult_le_compat_l; lra|right; field; lra]. } 
    assert (exp t * - t <= 1) by lra. assert (exp t * - t * u <= 1 * u) by (apply Rmult_le_compat_r; lra). lra.
  - apply Rabs_le_inv in Hd. assert (B : forall z, z <= t / 2 -> 0 < exp z <= 4 * u).
    { intros z Hz. split; [apply exp_pos|]. apply Rle_trans with (exp (t / 2)); [apply exp_le; lra|].
      pose proof (exp_ge (- (t / 2))) as G. rewrite exp_Ropp in G. pose proof (exp_pos (t / 2)) as P.
      assert (H : exp (t / 2) * (1 - t / 2) <= 1). { apply Rle_trans with (exp (t / 2) * / exp (t / 2)); [apply Rmult_le_compat_l; lra|right; field; lra]. }
      apply Rmult_le_reg_r with (1 - t / 2); [lra|]. eapply Rle_trans; [exact H|]. nra. }
    pose proof (B t ltac:(lra)) as B1. assert (t * (1 + d) <= t / 2) as Q by nra. pose proof (B _ Q) as B2. apply Rabs_le. lra.
Qed.
Lemma fold_Rsum_err : forall (xs : list R) (es : list f64) r, Forall2 (fun x (e : f64) => Rabs (real e - x) <= r) xs es -> Rabs (Rsum (map real es) - Rsum xs) <= INR (length es) * r.
Proof.
  intros xs es r H. induction H as [|x e xs es H HE IH]; cbn [map Rsum length]; [cbn [INR]; rewrite Rmult_0_l, Rminus_0_r, Rabs_R0; lra|]. rewrite S_INR.
  replace (real e + Rsum (map real es) - (x + Rsum xs)) with ((real e - x) + (Rsum (map real es) - Rsum xs)) by ring.
  eapply Rle_trans; [apply Rabs_triang|]. lra.
Qed.
Lemma shifted_err : forall m d (x mx : F64 m), exp_accurate m d -> 0 <= d -> is_finite x = true -> is_finite mx = true -> Rabs (real x) <= bpow radix2 1010 -> Rabs (real mx) <= bpow radix2 1010 -> real x <= real mx ->
  exists e : f64, expv (sub x mx) = Ok e /\ is_finite e = true /\ 0 <= real e /\ Rabs (real e - exp (real x - real mx)) <= d + 5 * u.
Proof.
  intros m d x mx HA Hd Fx Fm Bx Bm H. pose proof u_pos as UP. pose proof small_u as US.
  destruct (sub_fits x mx Fx Fm) as (F & t & Ht & R).
  { apply Rle_trans with ((bpow radix2 1010 + bpow radix2 1010) * 2); [apply Rmult_le_compat; try lra; pose proof (Rabs_pos (real x)); pose proof (Rabs_pos (real mx)); lra|].
    replace ((bpow radix2 1010 + bpow radix2 1010) * 2) with (bpow radix2 1010 * bpow radix2 2) by (change (bpow radix2 2) with 4; ring). rewrite <- bpow_plus. apply bpow_le. lia. }
  set (w := f_sub x mx) in *. assert (W0 : real w <= 0) by (rewrite R; apply Rabs_le_inv in Ht; nra).
  destruct (HA w F) as (e & Ee & Fe & Pe & Be); [change (B2R w) with (real w); lra|]. exists e. split.
  { change (@expv (F64 m) (f_sub x mx) = Ok e). fold w. change (f_exp m w = Ok e). clear - Ee F. clearbody w. unfold f_exp. destruct w as [?|[]| |]; try discriminate; rewrite Ee; reflexivity. }
  split; auto. split; auto. change (B2R e) with (real e) in Be. change (B2R w) with (real w) in Be. change (bpow radix2 (-1074)) with tiny in Be.
  pose proof (exp_shift (real x - real mx) t ltac:(lra) Ht) as ES. rewrite <- R in ES.
  replace (real e - exp (real x - real mx)) with ((real e - exp (real w)) + (exp (real w) - exp (real x - real mx))) by ring. eapply Rle_trans; [apply Rabs_triang|].
  assert (exp (real w) <= 1) by (rewrite <- exp_0; apply exp_le; lra). assert (d * exp (real w) <= d * 1) by (apply Rmult_le_compat_l; lra). pose proof tiny_u. lra.
Qed.

Lemma leb_real : forall m (x y : F64 m), is_finite x = true -> is_finite y = true -> leb x y = true -> real x <= real y.
Proof. intros m x y Fx Fy H. change (f_leb x y = true) in H. rewrite f_leb_x, (b2x_fin x Fx), (b2x_fin y Fy) in H. cbn [x_leb] in H. apply Rleb_le. exact H. Qed.
Lemma ft_softmax_err : forall m d (l : list (F64 m)), exp_accurate m d -> 0 <= d -> l <> [] -> (Z.of_nat (length l) <= 2 ^ 47)%Z -> INR (length l) * d <= / 8 ->
  Forall (fun x : f64 => is_finite x = true /\ Rabs (real x) <= bpow radix2 1010) l ->
  exists p : list f64, ft_sfmax l = Ok p /\
    Forall2 (fun x (q : f64) => is_finite q = true /\ Rabs (real q - x) <= 4 * (INR (length l) * d) + (11 * INR (length l) + 2) * ulp1) (softmax (reals l)) p.
Proof.
  intros m d l HA Hd N L Hnd H. pose proof u_pos as UP. pose proof small_u as US.
  assert (FS : Forall (fun x : F64 m => is_finite x = true) l) by (eapply Forall_impl; [|exact H]; intros a Ha; apply Ha).
  assert (NN : Forall (fun x : F64 m => isnan x = false) l) by (eapply Forall_impl; [|exact FS]; intros x Hx; apply (fin_not_nan x); exact Hx).
  destruct (pymax_max m l N NN) as (mx & Em & Im & Nm & Mx). rewrite Forall_forall in H. destruct (H mx Im) as [Fm Bm].
  set (xs := map exp (map (fun x => x - real mx) (reals l))).
  assert (X : exists es : list f64, mapM (fun x : F64 m => expv (sub x mx)) l = Ok es /\ length es = length l /\
     Forall2 (fun x (e : f64) => is_finite e = true /\ 0 <= real e /\ 0 <= x /\ Rabs (real e - x) <= d + 5 * u) xs es).
  { unfold xs. clear N L Hnd NN FS Em Im. induction l as [|x l IH]; [exists []; repeat constructor|].
    destruct IH as (es & E & Le & F); [intros y Hy; apply H; right; auto|intros w Hw; apply Mx; right; auto|].
    destruct (H x (or_introl eq_refl)) as [Fx Bx].
    destruct (shifted_err m d x mx HA Hd Fx Fm Bx Bm) as (e & Ee & Fe & Pe & Be); [apply (leb_real m); auto; apply Mx; left; auto|].
    exists (e :: es). cbn [mapM]. rewrite Ee. cbn [bind]. rewrite E. split; auto. split; [cbn; auto|]. constructor; auto. repeat split; auto. left. apply exp_pos. }
  destruct X as (es & E & Le & F).
  assert (PX : Forall (fun x => 0 <= x) xs) by (unfold xs; apply Forall_map, Forall_forall; intros; left; apply exp_pos).
  assert (E1 : 1 <= Rsum xs). { apply in_Rsum; auto. unfold xs. rewrite <- exp_0. apply in_map. replace 0 with (real mx - real mx) by ring. apply (in_map (fun x => x - real mx)). unfold reals. apply in_map. exact Im. }
  assert (EU : Rsum xs <= INR (length l)).
  { unfold xs, reals. rewrite !map_map. clear - H Mx Fm. induction l as [|x l IH]; cbn [map Rsum length]; [cbn [INR]; lra|]. rewrite S_INR.
    assert (exp (real x - real mx) <= 1). { rewrite <- exp_0. apply exp_le. pose proof (leb_real m x mx (proj1 (H x (or_introl eq_refl))) Fm (Mx x (or_introl eq_refl))). lra. }
    specialize (IH (fun y Hy => H y (or_intror Hy)) (fun w Hw => Mx w (or_intror Hw))). lra. }
  assert (K : 0 <= INR (length l) * u <= / 64).
  { pose proof (pos_INR (length l)). pose proof (INR_le_bpow (length l) 47 ltac:(lia) L). split; [nra|]. apply Rle_trans with (bpow radix2 47 * u); [apply Rmult_le_compat_r; lra|].
    change (/ 64) with (bpow radix2 (-6)). unfold u. rewrite <- bpow_plus. apply bpow_le. lia. }
  set (r := INR (length l) * (d + 5 * u)). assert (R0 : 0 <= r <= / 4) by (unfold r; pose proof (pos_INR (length l)); nra).
  assert (HS : Rabs (Rsum (map real es) - Rsum xs) <= r * Rsum xs).
  { apply Rle_trans with (r * 1); [|apply Rmult_le_compat_l; lra]. rewrite Rmult_1_r. unfold r. rewrite <- Le. apply fold_Rsum_err. eapply Forall2_imp; [|exact F]. intros x e (_ & _ & _ & Q). exact Q. }
  destruct (normalise_err xs es r) as (Fs & Ps & Bs & DV); auto.
  - rewrite Le. lia.
  - split; [lra|]. eapply Rle_trans; [exact EU|]. eapply Rle_trans; [apply (INR_le_bpow (length l) 47); auto; lia|]. apply bpow_le. lia.
  - eapply Forall2_imp; [|exact F]. intros x e (Q1 & Q2 & Q3 & Q4). repeat split; auto. eapply Rle_trans; [exact Q4|].
    assert (1 <= INR (length l)). { change 1 with (INR 1). apply le_INR. destruct l; [congruence|cbn; lia]. } assert (d + 5 * u <= r) by (unfold r; nra). assert (r * 1 <= r * Rsum xs) by (apply Rmult_le_compat_l; lra). lra.
  - set (s := fold_left f_add es (f_ofZE 0 0)) in *. destruct (div_some s ltac:(lra) es) as (p & EP & FP). exists p. split.
    { unfold ft_sfmax. rewrite (mapM_ext _ (fun x : F64 m => expv (sub x mx))) by (intros x _; rewrite Em; reflexivity). change (num (F64 m)) with f64 in *. rewrite E. cbn [bind]. exact EP. }
    rewrite <- (softmax_shift (reals l) (real mx)). unfold softmax. fold xs. specialize (DV p FP). unfold xs in DV at 1. apply Forall2_map_l with (f := exp) in DV. apply Forall2_map_l. eapply Forall2_imp; [|exact DV].
    intros x q [A B]. split; auto. eapply Rle_trans; [exact B|]. rewrite Le. unfold r. rewrite ulp1_u. pose proof (pos_INR (length l)). nra.
Qed.

(** One-vs-rest rows. *)
Lemma ovr_err : forall m d (l : list (F64 m)), exp_accurate m d -> 0 <= d <= / 32 -> l <> [] -> (Z.of_nat (length l) <= 2 ^ 48)%Z ->
  Forall (fun x : f64 => is_finite x = true /\ Rabs (real x) <= 600) l ->
  exists es p : list f64, mapM expit l = Ok es /\ mapM (fun e => f_div e (fold_left f_add es (f_ofZE 0 0))) es = Ok p /\
    Forall2 (fun x (q : f64) => is_finite q = true /\ Rabs (real q - x) <= (6 * d + (3 * INR (length l) + 13) * ulp1) * x + eta)
      (map (fun x => logistic x / Rsum (map logistic (reals l))) (reals l)) p.
Proof.
  intros m d l HA Hd N L H. pose proof u_pos as UP. pose proof small_u as US.
  assert (X : exists es : list f64, mapM expit l = Ok es /\ length es = length l /\
     Forall2 (fun x (e : f64) => is_finite e = true /\ 0 <= real e /\ 0 <= x /\ Rabs (real e - x) <= (2 * d + 4 * ulp1) * x) (map logistic (reals l)) es).
  { clear N L. induction H as [|x l [Fx Bx] H (es & E & Le & F)]; [exists []; repeat constructor|].
    destruct (logistic_err m d x HA ltac:(lra) Fx Bx) as (e & Ee & Fe & Pe & Be). exists (e :: es). cbn [mapM]. rewrite Ee. cbn [bind]. rewrite E. split; auto. split; [cbn; auto|].
    constructor; auto. repeat split; auto. pose proof (logistic_pos (real x)). lra. }
  destruct X as (es & E & Le & F). exists es.
  assert (PX : 0 < Rsum (map logistic (reals l))) by (apply Rsum_pos_lt; [destruct l; [congruence|discriminate]|apply Forall_map, Forall_forall; intros; apply logistic_pos]).
  assert (PU : Rsum (map logistic (reals l)) <= INR (length l)).
  { clear. unfold reals. induction l as [|x l IH]; cbn [map Rsum length]; [cbn [INR]; lra|]. rewrite S_INR. pose proof (logistic_pos (real x)). lra. }
  destruct (normalise_rel (map logistic (reals l)) es (2 * d + 4 * ulp1)) as (p & EP & FP); auto.
  - rewrite ulp1_u. lra.
  - rewrite Le. auto.
  - split; auto. eapply Rle_trans; [exact PU|]. eapply Rle_trans; [apply (INR_le_bpow (length l) 48); auto; lia|]. apply bpow_le. lia.
  - exists p. split; auto. split; auto. apply Forall2_map_l with (f := logistic) in FP. apply Forall2_map_l. eapply Forall2_imp; [|exact FP]. intros x q [A B]. split; auto.
    rewrite Le in B. replace (6 * d + (3 * INR (length l) + 13) * ulp1) with (3 * (2 * d + 4 * ulp1) + (3 * INR (length l) + 1) * ulp1) by ring. exact B.
Qed.

(** 1 - p *)
Lemma one_minus_err : forall m d (x : F64 m), exp_accurate m d -> 0 <= d <= / 16 -> is_finite x = true -> Rabs (real x) <= 600 ->
  exists p : f64, expit x = Ok p /\ is_finite p = true /\ Rabs (real p - logistic (real x)) <= (2 * d + 4 * ulp1) * logistic (real x) /\
    is_finite (f_sub (f_ofZE 1 0) p) = true /\ Rabs (real (f_sub (f_ofZE 1 0) p) - (1 - logistic (real x))) <= 2 * d + 5 * ulp1.
Proof.
  intros m d x HA Hd Fx Hx. destruct (logistic_err m d x HA Hd Fx Hx) as (p & Ep & Fp & Pp & Bp). exists p. split; auto. split; auto. split; auto.
  pose proof u_pos as UP. pose proof small_u as US. pose proof (logistic_pos (real x)) as LP. set (L := logistic (real x)) in *. rewrite ulp1_u in *.
  assert (B1 : Rabs (real p - L) <= 2 * d + 8 * u) by (eapply Rle_trans; [exact Bp|]; nra). apply Rabs_le_inv in B1.
  destruct one_real as [F1 R1]. destruct (sub_fits (f_ofZE 1 0) p F1 Fp) as (F & t & Ht & R).
  { rewrite R1, Rabs_R1, (Rabs_pos_eq (real p)) by auto. apply Rle_trans with (bpow radix2 3); [change (bpow radix2 3) with 8; nra|apply bpow_le; lia]. }
  split; auto. rewrite R, R1. apply Rabs_le_inv in Ht. apply Rabs_le. nra.
Qed.

(** Probabilities as functions of the scores. *)
Lemma softmax_lip : forall (l l' : list R) e, 0 <= e <= / 4 -> Forall2 (fun s t => Rabs (s - t) <= e) l l' ->
  Forall2 (fun a b => 0 <= b /\ Rabs (a - b) <= 4 * e * b) (softmax l) (softmax l').
Proof.
  intros l l' e He H. pose proof (exp_small (2 * e) ltac:(rewrite Rabs_pos_eq; lra)) as U. pose proof (exp_small (- (2 * e)) ltac:(rewrite Rabs_Ropp, Rabs_pos_eq; lra)) as V.
  rewrite Rabs_Ropp in V. rewrite (Rabs_pos_eq (2 * e)) in U, V by lra. apply Rabs_le_inv in U, V.
  assert (P1 : forall s t, Rabs (s - t) <= e -> exp t * exp (- e) <= exp s <= exp t * exp e).
  { intros s t Q. apply Rabs_le_inv in Q. rewrite <- !exp_plus. split; apply exp_le; lra. }
  destruct H as [|x x' l l' Hx H]; [constructor|]. set (L := x :: l). set (L' := x' :: l').
  assert (HL : Forall2 (fun s t => Rabs (s - t) <= e) L L') by (constructor; auto).
  assert (S0 : 0 < Rsum (map exp L)) by (apply Rsum_pos_lt; [discriminate|apply Forall_map, Forall_forall; intros; apply exp_pos]).
  assert (S0' : 0 < Rsum (map exp L')) by (apply Rsum_pos_lt; [discriminate|apply Forall_map, Forall_forall; intros; apply exp_pos]).
  assert (SB : Rsum (map exp L') * exp (- e) <= Rsum (map exp L) <= Rsum (map exp L') * exp e).
  { clear - HL P1. clearbody L L'. induction HL as [|s t k k' Q HL IH]; cbn [map Rsum]; [lra|]. specialize (P1 s t Q). lra. }
  unfold softmax. apply Forall2_map_l, Forall2_map_r. eapply Forall2_imp; [|exact HL]. intros s t Q. cbv beta. specialize (P1 s t Q).
  set (S := Rsum (map exp L)) in *. set (S' := Rsum (map exp L')) in *. set (b := exp t / S'). set (a := exp s / S). pose proof (exp_pos t). pose proof (exp_pos s).
  assert (b0 : 0 < b) by (apply Rdiv_lt_0_compat; auto). assert (a0 : 0 < a) by (apply Rdiv_lt_0_compat; auto).
  assert (EA : a * S = exp s) by (unfold a; field; lra). assert (EB : b * S' = exp t) by (unfold b; field; lra).
  split; [lra|].
  assert (A1 : a <= b * exp (2 * e)).
  { apply Rmult_le_reg_r with S; auto. rewrite EA. eapply Rle_trans; [apply P1|]. rewrite <- EB. replace (2 * e) with (e + e) by ring. rewrite exp_plus.
    pose proof (exp_pos e). assert (M : exp e * exp (- e) = 1) by (rewrite <- exp_plus, Rplus_opp_r; apply exp_0).
    apply Rle_trans with (b * exp e * exp e * (S' * exp (- e))); [right; replace (b * exp e * exp e * (S' * exp (- e))) with (b * S' * exp e * (exp e * exp (- e))) by ring; rewrite M; ring|].
    replace (b * (exp e * exp e) * S) with (b * exp e * exp e * S) by ring. apply Rmult_le_compat_l; [|apply SB]. (apply Rmult_le_pos; [apply Rmult_le_pos|]; lra). }
  assert (A2 : b * exp (- (2 * e)) <= a).
  { apply Rmult_le_reg_r with S; auto. rewrite EA. eapply Rle_trans; [|apply P1]. rewrite <- EB. replace (- (2 * e)) with (- e + - e) by ring. rewrite exp_plus.
    pose proof (exp_pos (- e)). assert (M : exp e * exp (- e) = 1) by (rewrite <- exp_plus, Rplus_opp_r; apply exp_0).
    apply Rle_trans with (b * exp (- e) * exp (- e) * (S' * exp e)); [replace (b * (exp (- e) * exp (- e)) * S) with (b * exp (- e) * exp (- e) * S) by ring; apply Rmult_le_compat_l; [|apply SB]; (apply Rmult_le_pos; [apply Rmult_le_pos|]; lra)|].
    right. replace (b * exp (- e) * exp (- e) * (S' * exp e)) with (b * S' * exp (- e) * (exp e * exp (- e))) by ring. rewrite M. ring. }
  apply Rabs_le. nra.
Qed.
Lemma logistic_lip : forall s t e, 0 <= e <= / 2 -> Rabs (s - t) <= e -> Rabs (logistic s - logistic t) <= 2 * e * logistic t.
Proof.
  intros s t e He H. pose proof (exp_small e ltac:(rewrite Rabs_pos_eq; lra)) as U. pose proof (exp_small (- e) ltac:(rewrite Rabs_Ropp, Rabs_pos_eq; lra)) as V.
  rewrite Rabs_Ropp in V. rewrite (Rabs_pos_eq e) in U, V by lra. apply Rabs_le_inv in U, V, H.
  assert (P : exp (- t) * exp (- e) <= exp (- s) <= exp (- t) * exp e) by (rewrite <- !exp_plus; split; apply exp_le; lra).
  assert (E1 : 1 <= exp e) by (rewrite <- exp_0; apply exp_le; lra). assert (E2 : exp (- e) <= 1) by (rewrite <- exp_0; apply exp_le; lra).
  unfold logistic. set (X := exp (- s)) in *. set (Y := exp (- t)) in *. assert (X0 : 0 < X) by apply exp_pos. assert (Y0 : 0 < Y) by apply exp_pos. pose proof (exp_pos (- e)).
  assert (M : exp e * exp (- e) = 1) by (rewrite <- exp_plus, Rplus_opp_r; apply exp_0).
  set (a := / (1 + X)). set (b := / (1 + Y)). assert (A1 : a * (1 + X) = 1) by (unfold a; field; lra). assert (B1 : b * (1 + Y) = 1) by (unfold b; field; lra).
  assert (a0 : 0 < a) by (apply Rinv_0_lt_compat; lra). assert (b0 : 0 < b) by (apply Rinv_0_lt_compat; lra).
  assert (L1 : (1 + Y) * exp (- e) <= 1 + X) by nra. assert (L2 : 1 + X <= (1 + Y) * exp e) by nra.
  assert (Q1 : a * exp (- e) <= b). { apply Rmult_le_reg_r with (1 + Y); [lra|]. rewrite B1. apply Rle_trans with (a * (1 + X)); [|lra]. replace (a * exp (- e) * (1 + Y)) with (a * ((1 + Y) * exp (- e))) by ring. apply Rmult_le_compat_l; lra. }
  assert (Q2 : b <= a * exp e). { apply Rmult_le_reg_r with (1 + Y); [lra|]. rewrite B1. apply Rle_trans with (a * (1 + X)); [lra|]. replace (a * exp e * (1 + Y)) with (a * ((1 + Y) * exp e)) by ring. apply Rmult_le_compat_l; lra. }
  assert (Q3 : a <= b * exp e). { apply Rle_trans with (a * exp (- e) * exp e); [right; rewrite Rmult_assoc, (Rmult_comm (exp (- e))), M; ring|apply Rmult_le_compat_r; lra]. }
  assert (Q4 : b * exp (- e) <= a). { apply Rle_trans with (a * exp e * exp (- e)); [apply Rmult_le_compat_r; lra|right; rewrite Rmult_assoc, M; ring]. }
  apply Rabs_le. nra.
Qed.
