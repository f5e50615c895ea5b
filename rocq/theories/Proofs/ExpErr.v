(** Rounding errors of softmax and logistic values, given an accurate exp. *)
From Coq Require Import Reals Lra Lia ZArith Bool List.
From Flocq Require Import Core BinarySingleNaN Relative Plus_error.
From Verif Require Import Model.Py Model.Arith Model.F64 Model.XR Model.Base Proofs.Lib Proofs.Laws Proofs.Round Proofs.Unit Proofs.Arrays2 Proofs.CRLibm Proofs.RealLib Proofs.SumErr Proofs.DotErr Proofs.NormErr.
From Verif Require Import Spec.Matrix Spec.Reals Spec.Rounding Spec.Libm.
Import ListNotations.
Local Open Scope R_scope.

(** Dividing by the computed sum. *)
Lemma normalise_err : forall (xs : list R) (es : list f64) r, 0 <= r <= / 4 -> (Z.of_nat (length es) <= 2 ^ 51)%Z -> 0 < Rsum xs <= bpow radix2 1015 ->
  Forall2 (fun x (e : f64) => is_finite e = true /\ 0 <= real e /\ 0 <= x /\ Rabs (real e - x) <= r * Rsum xs) xs es -> Rabs (Rsum (map real es) - Rsum xs) <= r * Rsum xs ->
  is_finite (fold_left f_add es (f_ofZE 0 0)) = true /\ 0 < real (fold_left f_add es (f_ofZE 0 0)) /\
  Rsum xs * (1 - (r + 2 * (INR (length es) * ulp1))) <= real (fold_left f_add es (f_ofZE 0 0)) <= Rsum xs * (1 + (r + 2 * (INR (length es) * ulp1))) /\
  forall p, Forall2 (fun e q => f_div e (fold_left f_add es (f_ofZE 0 0)) = Ok q) es p -> Forall2 (fun x (q : f64) => is_finite q = true /\ Rabs (real q - x / Rsum xs) <= 4 * r + (INR (length es) + 2) * ulp1) xs p.
Proof.
  intros xs es r Hr HN [E0 EB] HE HS. set (E := Rsum xs) in *. set (Se := Rsum (map real es)) in *. set (s := fold_left f_add es (f_ofZE 0 0)) in *.
  pose proof u_pos as UP. pose proof u_le as UL.
  assert (FE : Forall (fun x : f64 => is_finite x = true) es) by (clear - HE; induction HE as [|? ? ? ? (? & _)]; constructor; auto).
  assert (PE : Forall (fun x : f64 => 0 <= real x) es) by (clear - HE; induction HE as [|? ? ? ? (_ & ? & _)]; constructor; auto).
  assert (RA : Rasum (map real es) = Se). { unfold Se. clear - PE. unfold Rasum. induction PE; cbn [map Rsum]; auto. rewrite IHPE, Rabs_pos_eq by auto. reflexivity. }
  set (n := length es) in *. destruct (pow_up n ltac:(lia)) as [[PW1 PW3] PW2]. set (w := (1 + u) ^ n) in *. apply Rabs_le_inv in HS.
  assert (NU : INR n * u <= / 4).
  { pose proof (INR_le_bpow n 51 ltac:(lia) HN). apply Rle_trans with (bpow radix2 51 * u); [apply Rmult_le_compat_r; lra|]. change (/ 4) with (bpow radix2 (-2)). unfold u. rewrite <- bpow_plus. apply bpow_le. lia. }
  pose proof (pos_INR n) as N0.
  assert (Z0 : real (f_ofZE 0 0) = 0) by reflexivity.
  destruct (fold_signed es (f_ofZE 0 0) FE eq_refl) as [Fs Es].
  { rewrite Z0, Rabs_R0, Rplus_0_l, RA. fold n w. apply Rle_trans with (bpow radix2 1015 * bpow radix2 2); [change (bpow radix2 2) with 4; nra|rewrite <- bpow_plus; apply bpow_le; lia]. }
  fold s in Fs, Es. rewrite Z0, Rabs_R0, !Rplus_0_l, RA in Es. fold n w Se in Es. apply Rabs_le_inv in Es. split; auto.
  assert (S1 : 3 / 4 * E <= Se <= 5 / 4 * E) by nra. assert (Sp : 0 < Se) by lra.
  assert (WN : w - 1 <= INR n * ulp1) by lra. set (k := INR n * ulp1) in *. assert (k0 : 0 <= k <= / 2) by (unfold k; rewrite ulp1_u; nra).
  assert (B : Se * (1 - k) <= real s <= Se * (1 + k)) by nra. assert (sp : 0 < real s) by nra. split; auto.
  assert (BE1 : E * (1 - (r + 2 * k)) <= E * ((1 - r) * (1 - k))) by (apply Rmult_le_compat_l; nra).
  assert (BE2 : E * ((1 + r) * (1 + k)) <= E * (1 + (r + 2 * k))) by (apply Rmult_le_compat_l; nra).
  split. { assert (E * (1 - r) <= Se <= E * (1 + r)) by lra. split; [eapply Rle_trans; [exact BE1|]; eapply Rle_trans; [|apply B]; nra|eapply Rle_trans; [|exact BE2]; eapply Rle_trans; [apply B|]; nra]. }
  intros p HD.
  assert (EN : forall e, In e es -> real e <= Se).
  { unfold Se. clear - PE. induction PE as [|a l Pa PE IH]; intros e Hi; [contradiction|]; destruct Hi as [->|Hi]; cbn [map Rsum]; assert (0 <= Rsum (map real l)) by (apply Rsum_nonneg, Forall_map; auto); [lra|specialize (IH e Hi); lra]. }
  apply Forall2_nth_error. apply Forall2_nth_error in HE. apply Forall2_nth_error in HD. destruct HE as [L1 HE], HD as [L2 HD]. split; [congruence|].
  intros i x q Hx Hq. destruct (nth_error es i) as [e|] eqn:He; [|apply nth_error_None in He; apply nth_error_lt in Hx; lia].
  destruct (HE i x e Hx He) as (Fe & Pe & Px & Ee). specialize (HD i e q He Hq). specialize (EN e (nth_error_In _ _ He)). apply Rabs_le_inv in Ee.
  assert (XE : x <= E). { unfold E. apply nth_error_In in Hx. assert (PX : Forall (fun x => 0 <= x) xs).
    { apply Forall_forall. intros y Hy. apply In_nth_error in Hy. destruct Hy as [j Hj]. destruct (nth_error es j) as [e'|] eqn:He'; [|apply nth_error_None in He'; apply nth_error_lt in Hj; lia]. apply (HE j y e' Hj He'). }
    clear - PX Hx. induction PX as [|a l Pa PX IH]; [contradiction|]. destruct Hx as [->|Hx]; cbn [Rsum]; [pose proof (Rsum_nonneg l PX); lra|specialize (IH Hx); lra]. }
  (* real e / real s *)
  set (a := real e / Se). assert (a0 : 0 <= a <= 1).
  { unfold a. split; [apply Rmult_le_pos; [auto|apply Rlt_le, Rinv_0_lt_compat; auto]|]. apply Rmult_le_reg_r with Se; auto. unfold Rdiv. rewrite Rmult_assoc, Rinv_l by lra. lra. }
  assert (A1 : Rabs (a - x / E) <= 8 / 3 * r).
  { replace (a - x / E) with (((real e - x) * E + x * (E - Se)) / (Se * E)) by (unfold a; field; lra).
    unfold Rdiv. rewrite Rabs_mult, (Rabs_pos_eq (/ (Se * E))) by (apply Rlt_le, Rinv_0_lt_compat; nra).
    apply Rmult_le_reg_r with (Se * E); [nra|]. rewrite Rmult_assoc, Rinv_l by nra. rewrite Rmult_1_r.
    eapply Rle_trans; [apply Rabs_triang|]. rewrite !Rabs_mult, (Rabs_pos_eq E), (Rabs_pos_eq x) by lra.
    assert (Rabs (real e - x) <= r * E) by (apply Rabs_le; lra). assert (Rabs (E - Se) <= r * E) by (apply Rabs_le; lra).
    apply Rle_trans with (r * E * E + E * (r * E)); [apply Rplus_le_compat; apply Rmult_le_compat; auto using Rabs_pos; lra|].
    assert (r * E * (3 / 4 * E) <= r * E * Se) by (apply Rmult_le_compat_l; [nra|lra]). nra. }
  set (N := INR n * u) in *. assert (N00 : 0 <= N) by (unfold N; nra).
  assert (Q : exists f, real e / real s = a * (1 + f) /\ Rabs f <= 4 / 3 * N).
  { exists (Se / real s - 1). split; [unfold a; field; lra|].
    pose proof (fold_err es (f_ofZE 0 0) Fs (Rle_refl 0) PE) as FB. change (B2R (f_ofZE 0 0)) with 0 in FB. rewrite Rplus_0_l in FB. fold s in FB. change (B2R s) with (real s) in FB.
    change (Rsum (map (fun x : f64 => B2R x) es)) with Se in FB. fold n in FB. destruct FB as [F1 F2].
    pose proof (pow_lo n) as P1. fold N in P1. pose proof (pow_hi n ltac:(fold N; lra)) as P2. fold N in P2.
    assert (G1 : Se * (1 - N) <= real s) by (apply Rle_trans with (Se * (1 - u) ^ n); [apply Rmult_le_compat_l; [lra|exact P1]|exact F1]).
    assert (G2 : real s * (1 - N) <= Se). { apply Rle_trans with (Se * / (1 - N) * (1 - N)); [apply Rmult_le_compat_r; [lra|]; apply Rle_trans with (Se * (1 + u) ^ n); [exact F2|]; apply Rmult_le_compat_l; [lra|exact P2]|]. right. field. lra. }
    apply Rabs_le. split.
    - apply Rmult_le_reg_r with (real s); auto. replace ((Se / real s - 1) * real s) with (Se - real s) by (field; lra). nra.
    - apply Rmult_le_reg_r with (real s); auto. replace ((Se / real s - 1) * real s) with (Se - real s) by (field; lra). nra. }
  destruct Q as (f & Q & Hf). apply Rabs_le_inv in Hf.
  destruct (div_fits e s q Fe Fs HD) as (Fq & d & t & Hd & Ht & R).
  { rewrite Q, Rabs_pos_eq by nra. apply Rle_trans with (bpow radix2 1); [change (bpow radix2 1) with 2; nra|apply bpow_le; lia]. }
  split; auto. rewrite R, Q. pose proof eta_small. assert (ET : eta <= / 4 * u) by nra.
  replace (a * (1 + f) * (1 + d) + t - x / E) with ((a - x / E) + (a * f + a * (1 + f) * d + t)) by ring. eapply Rle_trans; [apply Rabs_triang|].
  assert (T : Rabs (a * f + a * (1 + f) * d + t) <= 2 * N + 4 * u).
  { apply Rabs_le_inv in Hd, Ht. assert (- (4 / 3 * N) <= a * f <= 4 / 3 * N) by nra. assert (0 <= a * (1 + f) <= 4 / 3) by nra. apply Rabs_le. nra. }
  replace ((INR n + 2) * ulp1) with (2 * N + 4 * u) by (unfold N; rewrite ulp1_u; ring). lra.
Qed.

Lemma div_some : forall (s : f64), real s <> 0 -> forall es : list f64, exists p, mapM (fun e => f_div e s) es = Ok p /\ Forall2 (fun e q => f_div e s = Ok q) es p.
Proof.
  intros s H es. induction es as [|e es (p & E & F)]; [exists []; auto|]. destruct s as [|[]| |s' mx ex Hm]; cbn in H; try lra.
  cbn [mapM]. rewrite E. eexists. split; [reflexivity|]. constructor; auto.
Qed.

(** The same with relative errors. *)
Lemma normalise_rel : forall (xs : list R) (es : list f64) r, 0 <= r <= / 8 -> (Z.of_nat (length es) <= 2 ^ 48)%Z -> 0 < Rsum xs <= bpow radix2 1015 ->
  Forall2 (fun x (e : f64) => is_finite e = true /\ 0 <= real e /\ 0 <= x /\ Rabs (real e - x) <= r * x) xs es ->
  exists p, mapM (fun e => f_div e (fold_left f_add es (f_ofZE 0 0))) es = Ok p /\
  Forall2 (fun x (q : f64) => is_finite q = true /\ Rabs (real q - x / Rsum xs) <= (3 * r + (3 * INR (length es) + 1) * ulp1) * (x / Rsum xs) + eta) xs p.
Proof.
  intros xs es r Hr HN HE0 HE. pose proof u_pos as UP. pose proof u_le as UL.
  assert (PX : Forall (fun x => 0 <= x) xs) by (clear - HE; induction HE as [|? ? ? ? (_ & _ & ? & _)]; constructor; auto).
  assert (XE : forall x, In x xs -> x <= Rsum xs).
  { clear - PX. induction PX as [|a l Pa PX IH]; intros x Hx; [contradiction|]. destruct Hx as [->|Hx]; cbn [Rsum]; [pose proof (Rsum_nonneg l PX); lra|specialize (IH x Hx); lra]. }
  assert (HS : Rabs (Rsum (map real es) - Rsum xs) <= r * Rsum xs).
  { clear - HE. induction HE as [|x e xs es (_ & _ & _ & H) HE IH]; cbn [map Rsum]; [rewrite Rmult_0_r, Rminus_0_r, Rabs_R0; lra|].
    replace (real e + Rsum (map real es) - (x + Rsum xs)) with ((real e - x) + (Rsum (map real es) - Rsum xs)) by ring.
    eapply Rle_trans; [apply Rabs_triang|]. lra. }
  destruct (normalise_err xs es r) as (Fs & Ps & Bs & _); auto; try lra; try lia.
  { clear - HE XE Hr. apply Forall2_nth_error. apply Forall2_nth_error in HE. destruct HE as [L HE]. split; auto. intros i x e Hx He. destruct (HE i x e Hx He) as (A & B & C & D). repeat split; auto.
    eapply Rle_trans; [exact D|]. apply Rmult_le_compat_l; [lra|]. apply XE. eapply nth_error_In; eauto. }
  set (s := fold_left f_add es (f_ofZE 0 0)) in *. set (E := Rsum xs) in *. set (n := length es) in *. destruct HE0 as [E0 EB].
  destruct (div_some s ltac:(lra) es) as (p & EP & FP). exists p. split; auto.
  assert (K : 0 <= INR n * ulp1 <= / 16).
  { pose proof (pos_INR n). pose proof (INR_le_bpow n 48 ltac:(lia) HN). split; [rewrite ulp1_u; nra|]. apply Rle_trans with (bpow radix2 48 * ulp1); [apply Rmult_le_compat_r; [rewrite ulp1_u; lra|lra]|].
    change (/ 16) with (bpow radix2 (-4)). unfold ulp1. rewrite <- bpow_plus. apply bpow_le. lia. }
  rewrite Rmult_plus_distr_r, Rmult_assoc. set (k := INR n * ulp1) in *. rewrite Rmult_1_l.
  apply Forall2_nth_error. apply Forall2_nth_error in HE. apply Forall2_nth_error in FP. destruct HE as [L1 HE], FP as [L2 HD]. split; [congruence|].
  intros i x q Hx Hq. destruct (nth_error es i) as [e|] eqn:He; [|apply nth_error_None in He; apply nth_error_lt in Hx; lia].
  destruct (HE i x e Hx He) as (Fe & Pe & Px & Ee). specialize (HD i e q He Hq). specialize (XE x (nth_error_In _ _ Hx)). apply Rabs_le_inv in Ee. fold E in XE.
  set (y := x / E). assert (Hy : 0 <= y <= 1).
  { unfold y. split; [apply Rmult_le_pos; [auto|apply Rlt_le, Rinv_0_lt_compat; auto]|]. apply Rmult_le_reg_r with E; auto. unfold Rdiv. rewrite Rmult_assoc, Rinv_l by lra. lra. }
  assert (XY : x = y * E) by (unfold y; field; lra).
  set (c := real e / real s). assert (Ce : real e = c * real s) by (unfold c; field; lra).
  assert (C0 : 0 <= c) by (unfold c; apply Rmult_le_pos; [auto|apply Rlt_le, Rinv_0_lt_compat; auto]).
  assert (CB : Rabs (c - y) <= 8 / 3 * (r + k) * y).
  { assert (c * (E * (1 - (r + 2 * k))) <= y * E * (1 + r)) by (apply Rle_trans with (c * real s); [apply Rmult_le_compat_l; lra|nra]).
    assert (y * E * (1 - r) <= c * (E * (1 + (r + 2 * k)))) by (apply Rle_trans with (c * real s); [nra|apply Rmult_le_compat_l; lra]).
    assert (G1 : c * (1 - (r + 2 * k)) <= y * (1 + r)) by (apply Rmult_le_reg_r with E; [auto|nra]).
    assert (G2 : y * (1 - r) <= c * (1 + (r + 2 * k))) by (apply Rmult_le_reg_r with E; [auto|nra]).
    set (g := r + 2 * k) in *. assert (g0 : 0 <= g <= / 4) by (unfold g; lra).
    apply Rabs_le. split.
    - apply Ropp_le_cancel. rewrite Ropp_involutive. apply Rmult_le_reg_r with (1 + g); [lra|]. assert (y - y * r <= c + c * g) by nra.
      apply Rle_trans with (y * (2 * (r + k))); [unfold g in *; nra|]. assert (0 <= y * (r + k)) by (apply Rmult_le_pos; lra). nra.
    - apply Rmult_le_reg_r with (1 - g); [lra|]. apply Rle_trans with (y * (2 * (r + k))); [unfold g in *; nra|]. assert (0 <= y * (r + k)) by (apply Rmult_le_pos; lra). nra. }
  assert (C2 : c <= 3 / 2 * y). { apply Rabs_le_inv in CB. assert (8 / 3 * (r + k) * y <= / 2 * y) by (apply Rmult_le_compat_r; lra). lra. }
  destruct (div_fits e s q Fe Fs HD) as (Fq & d & t & Hd & Ht & R).
  { fold c. rewrite Rabs_pos_eq by auto. apply Rle_trans with (bpow radix2 1); [change (bpow radix2 1) with 2; lra|apply bpow_le; lia]. }
  split; auto. rewrite R. fold c. replace (c * (1 + d) + t - y) with ((c - y) + c * d + t) by ring.
  eapply Rle_trans; [apply Rabs_triang|]. apply Rplus_le_compat; [|exact Ht]. eapply Rle_trans; [apply Rabs_triang|].
  rewrite (Rabs_mult c d), (Rabs_pos_eq c) by auto. assert (c * Rabs d <= 3 / 2 * y * u) by (apply Rmult_le_compat; auto using Rabs_pos). rewrite ulp1_u.
  assert (0 <= y * r) by nra. assert (0 <= y * k) by nra. assert (0 <= y * u) by nra. nra.
Qed.

(** exp on moderate arguments *)
Lemma exp600 : exp 600 <= bpow radix2 960.
Proof.
  replace 600 with (INR (5 * 120)) by (rewrite mult_INR, (INR_IZR_INZ 5), (INR_IZR_INZ 120); cbn; lra). change 960%Z with (Z.of_nat (8 * 120)).
  rewrite bpow_pow, exp_pow, !pow_mult. apply pow_incr. split; [apply pow_le; left; apply exp_pos|]. apply Rle_trans with (3 ^ 5); [apply pow_incr; split; [left; apply exp_pos|apply exp_le_3]|cbn; lra].
Qed.
Lemma exp_range : forall x, Rabs x <= 600 -> bpow radix2 (-960) <= exp x <= bpow radix2 960.
Proof.
  intros x H. apply Rabs_le_inv in H. split.
  - rewrite <- (Ropp_involutive x), exp_Ropp. change (-960)%Z with (- (960))%Z. rewrite bpow_opp. apply Rinv_le; [apply exp_pos|]. eapply Rle_trans; [apply (exp_le (- x) 600); lra|apply exp600].
  - eapply Rle_trans; [apply (exp_le x 600); lra|apply exp600].
Qed.
Lemma exp_ok : forall m d (x : F64 m), exp_accurate m d -> is_finite x = true -> Rabs (real x) <= 600 ->
  exists y : f64, safe_exp x = Ok y /\ expv x = Ok y /\ is_finite y = true /\ 0 <= real y /\ Rabs (real y - exp (real x)) <= (d + u) * exp (real x).
Proof.
  intros m d x HA Fx Hx. destruct (HA x Fx) as (y & Ey & Fy & Py & By); [apply Rabs_le_inv in Hx; apply Hx|].
  exists y. rewrite (safe_exp_fin m x Fx), Ey. split; auto. split; [cbn [expv F64]; unfold f_exp; destruct x as [?|[]| |]; try discriminate; rewrite Ey; reflexivity|].
  split; auto. split; auto. eapply Rle_trans; [exact By|]. rewrite Rmult_plus_distr_r. apply Rplus_le_compat_l.
  apply Rle_trans with (u * bpow radix2 (-960)); [unfold u; rewrite <- bpow_plus; apply bpow_le; lia|]. apply Rmult_le_compat_l; [left; apply u_pos|apply exp_range; auto].
Qed.
Lemma exps_ok : forall m d (l : list (F64 m)), exp_accurate m d -> Forall (fun x : f64 => is_finite x = true /\ Rabs (real x) <= 600) l ->
  exists es : list f64, mapM safe_exp l = Ok es /\ length es = length l /\
    Forall2 (fun x (e : f64) => is_finite e = true /\ 0 <= real e /\ 0 <= x /\ Rabs (real e - x) <= (d + u) * x) (map exp (reals l)) es.
Proof.
  intros m d l HA H. induction H as [|x l [Fx Bx] H (es & E & L & F)]; [exists []; repeat constructor|].
  destruct (exp_ok m d x HA Fx Bx) as (y & Ey & _ & Fy & Py & By). exists (y :: es). cbn [mapM]. rewrite Ey. cbn [bind]. rewrite E. split; auto. split; [cbn; auto|].
  constructor; auto. repeat split; auto. left. apply exp_pos.
Qed.
Lemma exp_sum : forall l, l <> [] -> (Z.of_nat (length l) <= 2 ^ 48)%Z -> Forall (fun x => Rabs x <= 600) l -> bpow radix2 (-960) <= Rsum (map exp l) <= bpow radix2 1008.
Proof.
  intros l N L H. assert (G : Rsum (map exp l) <= INR (length l) * bpow radix2 960).
  { clear N L. induction H as [|x l Hx H IH]; cbn [map Rsum length]; [cbn [INR]; lra|]. rewrite S_INR. pose proof (exp_range x Hx). lra. }
  split.
  - destruct H as [|x l Hx H]; [congruence|]. cbn [map Rsum]. pose proof (exp_range x Hx). assert (0 <= Rsum (map exp l)); [|lra]. apply Rsum_nonneg, Forall_map, Forall_forall. intros. left. apply exp_pos.
  - eapply Rle_trans; [exact G|]. change 1008%Z with (48 + 960)%Z. rewrite bpow_plus. apply Rmult_le_compat_r; [apply bpow_ge_0|]. apply INR_le_bpow; auto. lia.
Qed.

(** Softmax. *)
Lemma softmax_err : forall m d (l : list (F64 m)), exp_accurate m d -> 0 <= d <= / 16 -> l <> [] -> (Z.of_nat (length l) <= 2 ^ 48)%Z ->
  Forall (fun x : f64 => is_finite x = true /\ Rabs (real x) <= 600) l ->
  exists p : list f64, sfmax l = Ok p /\
    Forall2 (fun x (q : f64) => is_finite q = true /\ Rabs (real q - x) <= (3 * d + (3 * INR (length l) + 3) * ulp1) * x + eta) (softmax (reals l)) p.
Proof.
  intros m d l HA Hd N L H. destruct (exps_ok m d l HA H) as (es & E & Le & F).
  destruct (normalise_rel (map exp (reals l)) es (d + u)) as (p & EP & FP); auto.
  - pose proof u_pos. assert (u <= / 16) by (unfold u; change (/ 16) with (bpow radix2 (-4)); apply bpow_le; lia). lra.
  - rewrite Le. auto.
  - destruct (exp_sum (reals l)) as [S1 S2].
    + destruct l; [congruence|discriminate].
    + unfold reals. rewrite map_length. auto.
    + unfold reals. apply Forall_map. eapply Forall_impl; [|exact H]. cbn. tauto.
    + split; [pose proof (bpow_gt_0 radix2 (-960)); lra|]. eapply Rle_trans; [exact S2|]. apply bpow_le. lia.
  - exists p. split; [unfold sfmax; rewrite E; cbn [bind]; exact EP|]. unfold softmax.
    apply Forall2_map_l with (f := exp) in FP. apply Forall2_map_l. eapply Forall2_imp; [|exact FP]. intros x q [A B]. split; auto.
    eapply Rle_trans; [exact B|]. apply Rplus_le_compat_r. apply Rmult_le_compat_r.
    + apply Rmult_le_pos; [left; apply exp_pos|]. left. apply Rinv_0_lt_compat. 
      apply Rsum_pos_lt; [destruct l; [congruence|discriminate]|]. apply Forall_map, Forall_forall. intros. apply exp_pos.
    + rewrite Le, ulp1_u. pose proof u_pos. lra.
Qed.

(** Subtraction as an exact difference times (1 + d). *)
Lemma opp_fin : forall x : f64, is_finite x = true -> is_finite (f_opp x) = true /\ real (f_opp x) = - real x.
Proof. intros x F. unfold f_opp, real. rewrite is_finite_Bopp, B2R_Bopp. auto. Qed.
Lemma sub_fits : forall x y : f64, is_finite x = true -> is_finite y = true -> (Rabs (real x) + Rabs (real y)) * (1 + u) <= bpow radix2 1020 ->
  is_finite (f_sub x y) = true /\ exists d, Rabs d <= u /\ real (f_sub x y) = (real x - real y) * (1 + d).
Proof.
  intros x y Fx Fy H. destruct (opp_fin y Fy) as [Fo Ro].
  destruct (add_fits x (f_opp y) Fx Fo) as (Fa & d & Hd & R); [rewrite Ro, Rabs_Ropp; auto|].
  assert (E : b2x (f_sub x y) = b2x (f_add x (f_opp y))).
  { rewrite f_sub_x, f_add_x, (b2x_fin x Fx), (b2x_fin y Fy), (b2x_fin _ Fo). change (B2R (f_opp y)) with (real (f_opp y)). rewrite Ro. reflexivity. }
  rewrite (b2x_fin _ Fa) in E. apply fin_of_b2x in E. destruct E as [F E]. split; auto. exists d. split; auto. change (B2R (f_sub x y)) with (real (f_sub x y)) in E. rewrite E. change (B2R (f_add x (f_opp y))) with (real (f_add x (f_opp y))). rewrite R, Ro. ring.
Qed.

(** The logistic function. *)
Lemma one_real : is_finite (f_ofZE 1 0) = true /\ real (f_ofZE 1 0) = 1.
Proof. pose proof b2x_one as E. apply fin_of_b2x in E. exact E. Qed.
Lemma logistic_err : forall m d (x : F64 m), exp_accurate m d -> 0 <= d <= / 16 -> is_finite x = true -> Rabs (real x) <= 600 ->
  exists p : f64, expit x = Ok p /\ is_finite p = true /\ 0 <= real p /\ Rabs (real p - logistic (real x)) <= (2 * d + 4 * ulp1) * logistic (real x).
Proof.
  intros m d x HA Hd Fx Hx. destruct (opp_fin x Fx) as [Fo Ro]. pose proof u_pos as UP. assert (UL : u <= / 64) by (unfold u; change (/ 64) with (bpow radix2 (-6)); apply bpow_le; lia).
  destruct (exp_ok m d (f_opp x) HA Fo) as (e & Ee & _ & Fe & Pe & Be); [rewrite Ro, Rabs_Ropp; auto|]. rewrite Ro in Be.
  assert (XR : bpow radix2 (-960) <= exp (- real x) <= bpow radix2 960) by (apply exp_range; rewrite Rabs_Ropp; auto).
  set (X := exp (- real x)) in *. assert (X0 : 0 < X) by apply exp_pos. apply Rabs_le_inv in Be.
  destruct one_real as [F1 R1].
  assert (EB : real e <= bpow radix2 961). { change 961%Z with (1 + 960)%Z. rewrite bpow_plus. change (bpow radix2 1) with 2. nra. }
  destruct (add_fits (f_ofZE 1 0) e F1 Fe) as (Fa & d1 & Hd1 & Ra).
  { rewrite R1, Rabs_R1, (Rabs_pos_eq (real e)) by auto. apply Rle_trans with ((bpow radix2 961 + bpow radix2 961) * 2); [apply Rmult_le_compat; try lra; apply Rplus_le_compat; auto; apply (bpow_le radix2 0 961); lia|].
    replace ((bpow radix2 961 + bpow radix2 961) * 2) with (bpow radix2 961 * bpow radix2 2) by (change (bpow radix2 2) with 4; ring). rewrite <- bpow_plus. apply bpow_le. lia. }
  rewrite R1 in Ra. apply Rabs_le_inv in Hd1. set (s := f_add (f_ofZE 1 0) e) in *.
  assert (S0 : 1 / 2 < real s) by (rewrite Ra; nra).
  destruct (div_some s ltac:(lra) [f_ofZE 1 0]) as (p & _ & FP). inversion FP as [|? q ? ? Hq]; subst.
  assert (LD : logistic (real x) = / (1 + X)) by reflexivity. set (L := logistic (real x)) in *. assert (L0 : 0 < L) by (rewrite LD; apply Rinv_0_lt_compat; lra).
  assert (LX : L * (1 + X) = 1) by (rewrite LD; field; lra).
  set (c := real (f_ofZE 1 0) / real s). assert (Cs : c * real s = 1) by (unfold c; rewrite R1; field; lra).
  assert (C0 : 0 < c) by (unfold c; rewrite R1; apply Rdiv_lt_0_compat; lra).
  destruct (div_fits (f_ofZE 1 0) s q F1 Fa Hq) as (Fq & d2 & t & Hd2 & Ht & Rq).
  { fold c. rewrite Rabs_pos_eq by lra. apply Rle_trans with (bpow radix2 1); [change (bpow radix2 1) with 2; nra|apply bpow_le; lia]. }
  fold c in Rq. set (g := (d + u) + 2 * u). assert (g0 : 0 <= g <= / 8) by (unfold g; lra).
  (* real s = (1 + X) (1 + [-g, g]) *)
  assert (SB : (1 + X) * (1 - g) <= real s <= (1 + X) * (1 + g)).
  { assert (A : (1 + X) * (1 - (d + u)) <= 1 + real e <= (1 + X) * (1 + (d + u))) by nra.
    assert (B : (1 + real e) * (1 - u) <= real s <= (1 + real e) * (1 + u)) by (rewrite Ra; nra).
    split.
    - apply Rle_trans with ((1 + X) * (1 - (d + u)) * (1 - u)); [|eapply Rle_trans; [|apply B]; apply Rmult_le_compat_r; lra].
      rewrite Rmult_assoc. apply Rmult_le_compat_l; [lra|]. unfold g. nra.
    - apply Rle_trans with ((1 + X) * (1 + (d + u)) * (1 + u)); [eapply Rle_trans; [apply B|]; apply Rmult_le_compat_r; lra|].
      rewrite Rmult_assoc. apply Rmult_le_compat_l; [lra|]. unfold g. nra. }
  assert (CB : Rabs (c - L) <= 8 / 7 * g * L).
  { set (s' := real s) in *. clearbody s' c L. clear - SB Cs LX C0 L0 g0 X0. clearbody g.
    assert (c * (1 - g) <= L) by (apply Rmult_le_reg_r with (1 + X); [lra|]; rewrite LX; apply Rle_trans with (c * s'); [rewrite Rmult_assoc; apply Rmult_le_compat_l; [lra|]; lra|lra]).
    assert (L <= c * (1 + g)) by (apply Rmult_le_reg_r with (1 + X); [lra|]; rewrite LX; apply Rle_trans with (c * s'); [lra|rewrite Rmult_assoc; apply Rmult_le_compat_l; [lra|]; lra]).
    assert (c <= 8 / 7 * L) by nra. apply Rabs_le. assert (c * g <= 8 / 7 * L * g) by (apply Rmult_le_compat_r; lra). lra. }
  assert (LB : bpow radix2 (-961) <= L).
  { rewrite LD. change (-961)%Z with (- (961))%Z. rewrite bpow_opp. apply Rinv_le; [lra|]. change 961%Z with (1 + 960)%Z. rewrite bpow_plus. change (bpow radix2 1) with 2. pose proof (bpow_le radix2 0 960 ltac:(lia)) as Q. change (bpow radix2 0) with 1 in Q. lra. }
  assert (TL : Rabs t <= u * L). { eapply Rle_trans; [exact Ht|]. apply Rle_trans with (u * bpow radix2 (-961)); [unfold u, eta; rewrite <- bpow_plus; apply bpow_le; lia|apply Rmult_le_compat_l; lra]. }
  assert (FIN : Rabs (real q - L) <= (2 * d + 4 * ulp1) * L).
  { rewrite Rq. replace (c * (1 + d2) + t - L) with ((c - L) + c * d2 + t) by ring.
    eapply Rle_trans; [apply Rabs_triang|]. eapply Rle_trans; [apply Rplus_le_compat_r, Rabs_triang|]. rewrite (Rabs_mult c d2), (Rabs_pos_eq c) by lra.
    assert (C8 : c <= 8 / 7 * L). { apply Rabs_le_inv in CB. assert (8 / 7 * g * L <= 1 / 7 * L) by (apply Rmult_le_compat_r; lra). lra. }
    assert (c * Rabs d2 <= 8 / 7 * L * u) by (apply Rmult_le_compat; auto using Rabs_pos; lra). rewrite ulp1_u. unfold g in CB. assert (0 <= d * L) by nra. assert (0 <= u * L) by nra. nra. }
  exists q. split; [unfold expit; change (opp x) with (f_opp x); rewrite Ee; cbn [bind]; exact Hq|]. split; auto. split; auto.
  apply Rabs_le_inv in FIN. rewrite ulp1_u in FIN. nra.
Qed.
