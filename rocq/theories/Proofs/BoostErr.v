(** Error analysis for gradient boosting (used by Props/BoostAccuracy.v). *)
From Coq Require Import Reals Lia Lra List.
From Flocq Require Import Core BinarySingleNaN.
From Verif Require Import Model.Py Model.Arith Model.F64 Model.XR Model.Utils Model.Base Model.Tree Model.Ensemble.
From Verif Require Import Spec.Matrix Spec.Reals Spec.Libm Spec.Rounding Spec.Boost.
From Verif Require Import Proofs.Lib Proofs.Laws Proofs.Round Proofs.Unit Proofs.RealLib Proofs.Argmax Proofs.Boosting Proofs.SumErr Proofs.DotErr Proofs.NormErr Proofs.ExpErr Proofs.LseErr.
Import ListNotations.
Local Open Scope R_scope.

(** The clipping bounds as doubles. *)
Definition EPSf : f64 := f_ofZE 4503599644147965 (-75).
Definition TOPf : f64 := f_sub (f_ofZE 1 0) EPSf.
Lemma real_SF : forall (x : f64) s mt e, B2SF x = SpecFloat.S754_finite s mt e -> is_finite x = true /\ real x = (if s then IZR (- Zpos mt) else IZR (Zpos mt)) * bpow radix2 e.
Proof.
  intros x s mt e H. destruct x as [z|z| |z mm ee He]; try discriminate. injection H as -> -> ->. split; [reflexivity|]. unfold real. cbn [B2R]. unfold F2R. cbn [Fnum Fexp]. destruct s; reflexivity.
Qed.
Lemma EPSf_val : is_finite EPSf = true /\ real EPSf = eps.
Proof.
  assert (H : B2SF EPSf = SpecFloat.S754_finite false 4503599644147965 (-75)) by (vm_compute; reflexivity).
  destruct (real_SF _ _ _ _ H) as [F V]. split; auto. rewrite V. unfold eps. rewrite bpow_powerRZ. reflexivity.
Qed.
Lemma TOPf_val : is_finite TOPf = true /\ real TOPf = top64.
Proof.
  assert (H : B2SF TOPf = SpecFloat.S754_finite false 9007198180999164 (-53)) by (vm_compute; reflexivity).
  destruct (real_SF _ _ _ _ H) as [F V]. split; auto. rewrite V. unfold top64. rewrite bpow_powerRZ. change (IZR radix2) with 2.
  change (powerRZ 2 (-53)) with (/ 2 ^ 53). field.
Qed.
Lemma eps_lo : / 2 ^ 23 <= eps.
Proof. unfold eps. change (powerRZ 2 (-75)) with (/ 2 ^ 75). apply Rmult_le_reg_r with (2 ^ 75); [apply pow_lt; lra|]. rewrite Rmult_assoc, Rinv_l by (apply pow_nonzero; lra). replace (/ 2 ^ 23 * 2 ^ 75) with (2 ^ 52) by (field). lra. Qed.
Lemma top_bounds : / 2 < top64 /\ / 2 ^ 23 <= 1 - top64.
Proof. unfold top64. change (powerRZ 2 (-53)) with (/ 2 ^ 53). split; lra. Qed.
Lemma clip64_bounds : forall p, eps <= clip64 p <= top64.
Proof. intro p. pose proof eps_small. destruct top_bounds as [T _]. unfold clip64. split; [apply Rmax_l|]. apply Rmax_lub; [lra|apply Rmin_r]. Qed.
Lemma fin_ltb : forall x y : f64, is_finite x = true -> is_finite y = true -> f_ltb x y = Rltb (real x) (real y).
Proof. intros x y Fx Fy. rewrite f_ltb_x, (b2x_fin x Fx), (b2x_fin y Fy). reflexivity. Qed.
Lemma clip_err : forall (m : libm) (p : F64 m), is_finite (p : f64) = true ->
  is_finite (clip p EPS (sub one EPS) : f64) = true /\ real (clip p EPS (sub one EPS)) = clip64 (real p).
Proof.
  intros m p Fp. unfold clip, gtb. destruct EPSf_val as [FE VE]. destruct TOPf_val as [FT VT]. pose proof (clip64_bounds 0) as CB. pose proof eps_small. destruct top_bounds as [T _].
  change (@EPS (F64 m)) with EPSf. change (@sub (F64 m) one EPSf) with TOPf. change (@ltb (F64 m)) with f_ltb.
  rewrite !fin_ltb, VE, VT by auto. unfold clip64. change (num (F64 m)) with f64 in *.
  destruct (Rltb (real p) eps) eqn:E1.
  - apply Rltb_lt in E1. split; auto. rewrite VE. rewrite Rmin_left by lra. rewrite Rmax_left by lra. auto.
  - apply Rltb_ge in E1. destruct (Rltb top64 (real p)) eqn:E2.
    + apply Rltb_lt in E2. split; auto. rewrite VT, Rmin_right, Rmax_right by lra. auto.
    + apply Rltb_ge in E2. split; auto. rewrite Rmin_left, Rmax_right by lra. auto.
Qed.

(** Logarithms of the clipped prior. *)
Lemma exp23 : 2 ^ 23 <= exp 23.
Proof.
  assert (H : 2 <= exp 1) by (pose proof (exp_ineq1 1 ltac:(lra)); lra).
  replace 23 with (INR 23 * 1) by (simpl; ring). replace (INR 23 * 1) with (INR 23) by ring.
  assert (Q : forall n, 2 ^ n <= exp (INR n)).
  { induction n as [|n IH]; [simpl; rewrite exp_0; lra|]. rewrite S_INR, exp_plus. rewrite <- tech_pow_Rmult, Rmult_comm. apply Rmult_le_compat; try lra. apply pow_le. lra. }
  apply Q.
Qed.
Lemma ln_bound : forall y, / 2 ^ 23 <= y <= 2 ^ 23 -> Rabs (ln y) <= 23.
Proof.
  intros y [H1 H2]. assert (P : 0 < / 2 ^ 23) by (apply Rinv_0_lt_compat, pow_lt; lra). apply Rabs_le. split.
  - apply Rle_trans with (ln (/ 2 ^ 23)); [|apply ln_le; lra]. rewrite ln_Rinv by (apply pow_lt; lra). apply Ropp_le_contravar.
    rewrite <- (ln_exp 23). apply ln_le; [apply pow_lt; lra|apply exp23].
  - rewrite <- (ln_exp 23). apply ln_le; [lra|]. eapply Rle_trans; [exact H2|apply exp23].
Qed.
Lemma safe_log_err : forall m dl (x : F64 m), log_accurate m dl -> 0 <= dl -> is_finite (x : f64) = true -> 0 < real x ->
  exists v : f64, safe_log x = Ok v /\ is_finite v = true /\ Rabs (real v - ln (real x)) <= dl * Rabs (ln (real x)) + tiny.
Proof.
  intros m dl x HL Hd Fx Px. destruct (HL x Fx Px) as [Fv B]. exists (m_log m x). split; [|split; auto].
  unfold safe_log. change (@eqb (F64 m) x zero) with (f_eqb x (f_ofZE 0 0)). change (@ltb (F64 m) x zero) with (f_ltb x (f_ofZE 0 0)).
  rewrite f_eqb_x, f_ltb_x, b2x_zero, (b2x_fin x Fx). cbn [x_eqb x_ltb]. fold (real x).
  replace (Reqb (real x) 0) with false by (symmetry; apply Reqb_neq; lra). replace (Rltb (real x) 0) with false by (symmetry; apply Rltb_ge; lra).
  change (@logv (F64 m) x) with (f_log m x). unfold real in Px. clear - Fx Px. destruct x as [?|[]| |[] mx ex Hm]; try discriminate; cbn [f_log]; auto; exfalso.
  - cbn in Px. lra.
  - pose proof (F2R_lt_0 radix2 {| Fnum := Z.neg mx; Fexp := ex |} ltac:(reflexivity)). cbn in Px, H. lra.
Qed.
Lemma log_prior : forall m dl (p : F64 m), log_accurate m dl -> 0 <= dl <= / 4096 -> is_finite (p : f64) = true ->
  exists a : f64, safe_log (clip p EPS (sub one EPS)) = Ok a /\ is_finite a = true /\ Rabs (real a) <= 24 /\
    Rabs (real a - ln (clip64 (real p))) <= 24 * dl + 6 * ulp1 + tiny.
Proof.
  intros m dl p HL Hd Fp. destruct (clip_err m p Fp) as [Fc Vc]. pose proof (clip64_bounds (real p)) as [B1 B2]. pose proof eps_pos. destruct top_bounds as [T1 T2].
  destruct (safe_log_err m dl (clip p EPS (sub one EPS)) HL ltac:(lra) Fc) as (a & Ea & Fa & Ba); [change (num (F64 m)) with f64 in *; rewrite Vc; lra|].
  change (num (F64 m)) with f64 in *. rewrite Vc in Ba. pose proof eps_lo.
  assert (LB : Rabs (ln (clip64 (real p))) <= 23) by (apply ln_bound; split; [lra|]; lra).
  assert (TB : tiny <= / 16) by (unfold tiny; change (/ 16) with (bpow radix2 (-4)); apply bpow_le; lia).
  assert (UB : 0 < ulp1) by apply bpow_gt_0. assert (0 <= tiny) by (left; apply bpow_gt_0).
  assert (DB : dl * Rabs (ln (clip64 (real p))) <= dl * 23) by (apply Rmult_le_compat_l; lra).
  exists a. split; auto. split; auto. split; [|lra].
  replace (real a) with ((real a - ln (clip64 (real p))) + ln (clip64 (real p))) by ring. eapply Rle_trans; [apply Rabs_triang|]. lra.
Qed.

Lemma ln_upper : forall t, 0 < t -> ln t <= t - 1.
Proof. intros t H. rewrite <- (ln_exp (t - 1)). apply ln_le; auto. pose proof (exp_ineq1_le (t - 1)). lra. Qed.
Lemma ln_near : forall t e, 0 <= e <= / 2 -> Rabs (t - 1) <= e -> Rabs (ln t) <= 2 * e.
Proof.
  intros t e He H. apply Rabs_le_inv in H. assert (P : 0 < t) by lra. pose proof (ln_upper t P) as U. pose proof (ln_upper (/ t) (Rinv_0_lt_compat _ P)) as V.
  rewrite ln_Rinv in V by auto. assert (I : / t <= 1 + 2 * e). { apply Rmult_le_reg_l with t; auto. rewrite Rinv_r by lra. nra. }
  apply Rabs_le. lra.
Qed.
Lemma div_ok : forall x y : f64, is_finite x = true -> is_finite y = true -> real y <> 0 -> exists q, f_div x y = Ok q.
Proof.
  intros x y Fx Fy H. pose proof (f_div_x x y) as X. rewrite (b2x_fin x Fx), (b2x_fin y Fy) in X. cbn [x_div] in X. fold (real y) in X.
  destruct (f_div x y) as [q|]; eauto. exfalso. replace (Reqb (real y) 0) with false in X by (symmetry; apply Reqb_neq; auto). discriminate.
Qed.
Lemma log_odds : forall m dl (p : F64 m), log_accurate m dl -> 0 <= dl <= / 4096 -> is_finite (p : f64) = true ->
  exists q a : f64, div (clip p EPS (sub one EPS)) (sub one (clip p EPS (sub one EPS)) : F64 m) = Ok q /\ safe_log (q : F64 m) = Ok a /\ is_finite a = true /\ Rabs (real a) <= 24 /\
    Rabs (real a - logit (clip64 (real p))) <= 24 * dl + 6 * ulp1 + tiny.
Proof.
  intros m dl p HL Hd Fp. destruct (clip_err m p Fp) as [Fc Vc]. pose proof (clip64_bounds (real p)) as [B1 B2]. pose proof eps_lo as B0. destruct top_bounds as [T1 T2].
  set (a := clip p EPS (sub one EPS)) in *. change (num (F64 m)) with f64 in *. clearbody a. rewrite <- Vc in *. set (x := real a) in *.
  pose proof u_pos as UP. pose proof SumErr.u_le as UL. assert (E23 : / 2 ^ 23 = bpow radix2 (-23)) by (change (bpow radix2 (-23)) with (/ 8388608); f_equal; ring).
  assert (F1 : is_finite (f_ofZE 1 0) = true) by reflexivity. assert (R1 : real (f_ofZE 1 0) = 1) by (pose proof b2x_one as O; rewrite (b2x_fin _ F1) in O; injection O as O; exact O).
  assert (X1 : x < 1) by (assert (0 < / 2 ^ 23) by (apply Rinv_0_lt_compat, pow_lt; lra); lra). assert (X0 : 0 < x) by (assert (0 < / 2 ^ 23) by (apply Rinv_0_lt_compat, pow_lt; lra); lra).
  destruct (sub_fits (f_ofZE 1 0) a F1 Fc) as [Fb (d1 & Hd1 & Vb)].
  { rewrite R1, Rabs_R1. fold x. rewrite Rabs_pos_eq by lra. apply Rle_trans with (bpow radix2 2); [change (bpow radix2 2) with 4; nra|apply bpow_le; lia]. }
  rewrite R1 in Vb. fold x in Vb. apply Rabs_le_inv in Hd1. set (b := f_sub (f_ofZE 1 0) a) in *.
  assert (U16 : u <= / 2 ^ 40). { replace (/ 2 ^ 40) with (bpow radix2 (-40)) by (change (bpow radix2 (-40)) with (/ 1099511627776); f_equal; ring). apply bpow_le. lia. }
  assert (U3 : / 2 ^ 40 < / 1024) by lra.
  assert (Pb : 0 < real b) by (rewrite Vb; apply Rmult_lt_0_compat; lra).
  destruct (div_ok a b Fc Fb ltac:(lra)) as (q & Eq). 
  set (Y := x / (1 - x)). assert (Y1 : / 2 ^ 23 <= Y).
  { unfold Y. apply Rmult_le_reg_r with (1 - x); [lra|]. unfold Rdiv. rewrite Rmult_assoc, Rinv_l, Rmult_1_r by lra. nra. }
  assert (Y2 : Y <= 2 ^ 23).
  { unfold Y. apply Rmult_le_reg_r with (1 - x); [lra|]. unfold Rdiv. rewrite Rmult_assoc, Rinv_l, Rmult_1_r by lra.
    assert (2 ^ 23 * / 2 ^ 23 <= 2 ^ 23 * (1 - x)) by (apply Rmult_le_compat_l; [apply pow_le; lra|lra]). rewrite Rinv_r in H by (apply pow_nonzero; lra). lra. }
  assert (QB : x / real b = Y / (1 + d1)) by (unfold Y; rewrite Vb; field; lra).
  assert (I1 : / (1 + d1) <= 1 + 2 * u) by (apply Rmult_le_reg_l with (1 + d1); [lra|]; rewrite Rinv_r by lra; nra).
  assert (I2 : 1 - u <= / (1 + d1)) by (apply Rmult_le_reg_l with (1 + d1); [lra|]; rewrite Rinv_r by lra; nra).
  assert (YP : 0 < Y) by (assert (0 < / 2 ^ 23) by (apply Rinv_0_lt_compat, pow_lt; lra); lra).
  destruct (div_fits a b q Fc Fb Eq) as [Fq (d2 & e2 & Hd2 & He2 & Vq)].
  { fold x. rewrite QB. unfold Rdiv. rewrite Rabs_pos_eq by (apply Rmult_le_pos; lra). apply Rle_trans with (2 ^ 23 * 2); [apply Rmult_le_compat; lra|].
    apply Rle_trans with (bpow radix2 24); [change (bpow radix2 24) with 16777216; lra|apply bpow_le; lia]. }
  fold x in Vq. rewrite QB in Vq. apply Rabs_le_inv in Hd2, He2.
  assert (ETA : eta <= u * Y).
  { apply Rle_trans with (u * bpow radix2 (-23)); [unfold u, eta; rewrite <- bpow_plus; apply bpow_le; lia|]. rewrite <- E23. apply Rmult_le_compat_l; lra. }
  set (t := real q / Y). assert (Vt : real q = Y * t) by (unfold t; field; lra).
  assert (Et : t = / (1 + d1) * (1 + d2) + e2 / Y) by (unfold t; rewrite Vq; field; lra).
  assert (EY : - u <= e2 / Y <= u) by (split; apply Rmult_le_reg_r with Y; auto; unfold Rdiv; rewrite Rmult_assoc, Rinv_l, Rmult_1_r by lra; lra).
  set (i1 := / (1 + d1)) in *. assert (D3 : - u <= d2 <= u) by lra. assert (Pi : 0 < i1) by lra.
  assert (T3 : Rabs (t - 1) <= 4 * u + u) by (rewrite Et; apply Rabs_le; split; nra).
  pose proof (ln_near t (4 * u + u) ltac:(lra) T3) as LT. apply Rabs_le_inv in T3. assert (Tp : 0 < t) by lra.
  assert (LQ : ln (real q) = logit x + ln t) by (rewrite Vt, ln_mult by auto; reflexivity).
  destruct (safe_log_err m dl q HL ltac:(lra) Fq) as (v & Ev & Fv & Bv); [rewrite Vt; apply Rmult_lt_0_compat; auto|].
  assert (LB : Rabs (logit x) <= 23) by (apply ln_bound; split; auto).
  assert (TB : tiny <= / 16) by (unfold tiny; change (/ 16) with (bpow radix2 (-4)); apply bpow_le; lia).
  assert (LL : Rabs (ln (real q)) <= 24) by (rewrite LQ; eapply Rle_trans; [apply Rabs_triang|]; lra).
  assert (DB : dl * Rabs (ln (real q)) <= dl * (23 + 10 * u)).
  { apply Rmult_le_compat_l; [lra|]. rewrite LQ. eapply Rle_trans; [apply Rabs_triang|]. lra. }
  assert (D5 : dl * (10 * u) <= u) by nra.
  assert (U2 : 2 * u = ulp1) by (symmetry; apply ulp1_u).
  assert (TT : 0 < tiny) by apply bpow_gt_0.
  assert (B9 : Rabs (real v - logit x) <= 24 * dl + 6 * ulp1 + tiny).
  { replace (real v - logit x) with ((real v - ln (real q)) + ln t) by (rewrite LQ; ring). eapply Rle_trans; [apply Rabs_triang|]. lra. }
  exists q, v. split; [exact Eq|]. split; [exact Ev|]. split; auto. split; [|exact B9].
  replace (real v) with ((real v - logit x) + logit x) by ring. eapply Rle_trans; [apply Rabs_triang|]. lra.
Qed.

(** The raw score: initial score plus the sum of the predictions times lr. *)
Lemma fold_stage : forall (lr : f64) (qs : list f64) acc, fold_left (fun acc q => f_add acc (f_mul q lr)) qs acc = fold_left f_add (prods (map (fun q => (q, lr)) qs)) acc.
Proof. intros lr qs. unfold prods. induction qs as [|q qs IH]; intro acc; [reflexivity|]. cbn [map fold_left fst snd]. apply IH. Qed.
Lemma stage_sums : forall (lr : f64) (qs : list f64), Rsum (exact_prods (map (fun q => (q, lr)) qs)) = real lr * Rsum (reals qs) /\
  Rasum (exact_prods (map (fun q => (q, lr)) qs)) = Rabs (real lr) * Rsum (map Rabs (reals qs)).
Proof.
  intros lr qs. unfold exact_prods, Rasum, reals. induction qs as [|q qs [IH1 IH2]]; cbn [map Rsum fst snd]; [split; ring|].
  rewrite IH1, IH2, Rabs_mult. split; ring.
Qed.
Lemma raw_close : forall dl e (lr a : f64) (qs : list f64) s, good_stages dl e lr qs -> 0 <= dl -> e <= / 4 -> is_finite a = true -> Rabs (real a) <= 24 ->
  Rabs (real a - s) <= 24 * dl + 6 * ulp1 + tiny ->
  let v := f_add a (fold_left (fun acc q => f_add acc (f_mul q lr)) qs (f_ofZE 0 0)) in
  is_finite v = true /\ Rabs (real v) <= 600 /\ Rabs (real v - (s + real lr * Rsum (reals qs))) <= e.
Proof.
  intros dl e lr a qs s (Fl & Fq & Ln & SZ & HE) Hdl He Fa Ba Bs. rewrite f_add_comm, fold_stage. set (l := map (fun q => (q, lr)) qs).
  destruct (stage_sums lr qs) as [S1 S2]. fold l in S1, S2. unfold stage_size in *. set (T := Rabs (real lr) * Rsum (map Rabs (reals qs))) in *.
  assert (LL : length l = length qs) by apply map_length.
  assert (T0 : 0 <= T) by (rewrite <- S2; apply Rasum_pos).
  destruct (dots_err l [a]) as [G1 G2].
  - apply Forall_map. eapply Forall_impl; [|exact Fq]. cbn. auto.
  - constructor; auto.
  - rewrite LL. cbn [length]. lia.
  - rewrite S2. unfold Rasum. cbn [map Rsum]. rewrite Rplus_0_r. apply Rle_trans with (bpow radix2 10); [change (bpow radix2 10) with 1024; lra|apply bpow_le; lia].
  - rewrite fold_left_app in G1, G2. cbn [fold_left] in G1, G2. cbv zeta. set (v := f_add (fold_left f_add (prods l) (f_ofZE 0 0)) a) in *.
    rewrite S1, S2, LL in G2. unfold Rasum in G2. cbn [map Rsum length] in G2. rewrite !Rplus_0_r in G2. rewrite plus_INR in G2. change (INR 1) with 1 in G2.
    pose proof (pos_INR (length qs)) as NP. assert (UP : 0 < ulp1) by apply bpow_gt_0. assert (TP : 0 < tiny) by apply bpow_gt_0.
    set (n := INR (length qs)) in *. set (E := real lr * Rsum (reals qs)) in *.
    assert (W : Rabs (real v - (s + E)) <= e).
    { replace (real v - (s + E)) with ((real v - (E + real a)) + (real a - s)) by ring. eapply Rle_trans; [apply Rabs_triang|].
      assert ((n + 1 + 1) * ulp1 * (T + Rabs (real a)) <= (n + 1 + 1) * ulp1 * (T + 24)) by (apply Rmult_le_compat_l; [apply Rmult_le_pos; lra|lra]).
      assert (6 * ulp1 <= 6 * ulp1 * (T + 24)) by nra. 
      assert (D : (n + 8) * ulp1 * (T + 24) = (n + 1 + 1) * ulp1 * (T + 24) + 6 * ulp1 * (T + 24)) by ring. lra. }
    split; auto. split; auto.
    assert (B1 : Rabs E <= T).
    { unfold E, T. rewrite Rabs_mult. apply Rmult_le_compat_l; [apply Rabs_pos|]. clear. induction (reals qs) as [|x l IH]; cbn [map Rsum]; [rewrite Rabs_R0; lra|]. eapply Rle_trans; [apply Rabs_triang|]. lra. }
    assert (B2 : Rabs s <= 24 + (24 * dl + 6 * ulp1 + tiny)) by (replace s with (real a + - (real a - s)) by ring; eapply Rle_trans; [apply Rabs_triang|]; rewrite Rabs_Ropp; lra).
    assert (B3 : 24 * dl + 6 * ulp1 + tiny <= / 4). { assert (0 <= n * tiny) by (apply Rmult_le_pos; lra). assert (6 * ulp1 <= (n + 8) * ulp1 * (T + 24)) by (apply Rle_trans with (8 * ulp1 * 1); [lra|apply Rmult_le_compat; nra]). lra. }
    replace (real v) with ((real v - (s + E)) + (s + E)) by ring. eapply Rle_trans; [apply Rabs_triang|]. assert (Rabs (s + E) <= Rabs s + Rabs E) by apply Rabs_triang. lra.
Qed.

(** A class whose exact score is ahead of the others by four times the relative
    error of the probabilities keeps its lead. *)
Lemma lead_kept : forall (m : libm) E (p : list (F64 m)) (s : list R) k, ulp1 <= E <= / 8 -> (Z.of_nat (length s) <= 2 ^ 48)%Z -> accurate E p (softmax s) -> leads_by (4 * E) s k -> best p k.
Proof.
  intros m E p s k HE LN HA (x & Hx & HL). assert (U0 : 0 < ulp1) by apply bpow_gt_0. set (S := Rsum (map exp s)).
  assert (SP : 0 < S). { unfold S. apply Rsum_pos_lt; [destruct s; [destruct k; discriminate|discriminate]|]. apply Forall_map, Forall_forall. intros; apply exp_pos. }
  unfold softmax in HA. fold S in HA. unfold accurate in HA. apply Forall2_map_r in HA. apply Forall2_nth_error in HA. destruct HA as [LP0 HP]. assert (LP : length p = length s) by exact LP0. clear LP0.
  assert (Hp : exists v, nth_error p k = Some v). { destruct (nth_error p k) eqn:Ev; eauto. apply nth_error_None in Ev. apply nth_error_lt in Hx. lia. }
  destruct Hp as (v & Hv). destruct (HP k v x Hv Hx) as [Fv Bv]. set (q := exp x / S) in *.
  assert (QK : / INR (length s) <= q).
  { unfold q. assert (N0 : 0 < INR (length s)) by (apply lt_0_INR; apply nth_error_lt in Hx; lia).
    apply Rmult_le_reg_r with (INR (length s) * S); [apply Rmult_lt_0_compat; auto|]. replace (/ INR (length s) * (INR (length s) * S)) with S by (field; lra).
    replace (exp x / S * (INR (length s) * S)) with (INR (length s) * exp x) by (field; lra).
    unfold S. assert (G : forall l, (forall y, In y l -> y <= x) -> Rsum (map exp l) <= INR (length l) * exp x).
    { induction l as [|y l IH]; intro H; [cbn; lra|]. cbn [map Rsum]. change (length (y :: l)) with (Datatypes.S (length l)). rewrite S_INR. assert (exp y <= exp x) by (apply exp_le, H; left; auto). specialize (IH (fun z Hz => H z (or_intror Hz))). lra. }
    apply G. intros y Hy. apply In_nth_error in Hy. destruct Hy as (j & Hj). destruct (Nat.eq_dec j k) as [->|N]; [rewrite Hx in Hj; injection Hj as <-; lra|]. specialize (HL j y N Hj). assert (0 < ulp1) by apply bpow_gt_0. lra. }
  assert (TQ : 16 * tiny <= ulp1 * q).
  { assert (N0 : 0 < INR (length s)) by (apply lt_0_INR; apply nth_error_lt in Hx; lia).
    assert (N1 : INR (length s) <= bpow radix2 48). { rewrite INR_IZR_INZ. change (bpow radix2 48) with (IZR (2 ^ 48)). apply IZR_le. auto. }
    assert (N2 : bpow radix2 (-48) <= / INR (length s)) by (change (-48)%Z with (- (48))%Z; rewrite bpow_opp; apply Rinv_le; auto).
    apply Rle_trans with (ulp1 * bpow radix2 (-48)); [unfold tiny, ulp1; change 16 with (bpow radix2 4); rewrite <- !bpow_plus; apply bpow_le; lia|].
    apply Rmult_le_compat_l; [left; apply bpow_gt_0|lra]. }
  assert (Q0 : 0 < q) by (apply Rdiv_lt_0_compat; auto; apply exp_pos). assert (T0 : 0 < tiny) by apply bpow_gt_0.
  assert (W : forall j w, j <> k -> nth_error p j = Some w -> is_finite (w : f64) = true /\ real w < real v).
  { intros j w Nj Hw. assert (Hy : exists y, nth_error s j = Some y). { destruct (nth_error s j) eqn:Ey; eauto. apply nth_error_None in Ey. apply nth_error_lt in Hw. change (num (F64 m)) with f64 in *. lia. }
    destruct Hy as (y & Hy). destruct (HP j w y Hw Hy) as [Fw Bw]. split; auto. specialize (HL j y Nj Hy).
    assert (X : exp y * (1 + 4 * E) <= exp x). { apply Rle_trans with (exp y * exp (4 * E)); [apply Rmult_le_compat_l; [left; apply exp_pos|apply exp_ineq1_le]|]. rewrite <- exp_plus. apply exp_le. lra. }
    assert (X2 : exp y / S * (1 + 4 * E) <= q). { unfold q. apply Rmult_le_reg_r with S; auto. replace (exp y / S * (1 + 4 * E) * S) with (exp y * (1 + 4 * E)) by (field; lra). replace (exp x / S * S) with (exp x) by (field; lra). auto. }
    set (r := exp y / S) in *. assert (R0 : 0 < r) by (apply Rdiv_lt_0_compat; auto; apply exp_pos).
    apply Rabs_le_inv in Bv, Bw. assert (r <= q / (1 + 4 * E)) by (apply Rmult_le_reg_r with (1 + 4 * E); [assert (0 < ulp1) by apply bpow_gt_0; lra|]; replace (q / (1 + 4 * E) * (1 + 4 * E)) with q by (field; assert (0 < ulp1) by apply bpow_gt_0; lra); auto).
    assert (UQ : ulp1 * q <= E * q) by (apply Rmult_le_compat_r; lra).
    assert (P1 : real w <= (1 + E) * r + tiny) by lra. assert (P2 : (1 - E) * q - tiny <= real v) by lra.
    assert (P3 : (1 + E) * r * (1 + 4 * E) <= (1 + E) * q) by nra.
    assert (P4 : (1 + E) * r <= (1 - E) * q - E * q / 4).
    { apply Rmult_le_reg_r with (1 + 4 * E); [lra|]. eapply Rle_trans; [exact P3|]. assert (E * q * E <= E * q * / 8) by (apply Rmult_le_compat_l; nra). nra. }
    lra. }
  assert (NN : forall j (w : f64), nth_error p j = Some w -> is_nan w = false).
  { intros j w Hw. destruct (Nat.eq_dec j k) as [->|N]; [change (num (F64 m)) with f64 in *; rewrite Hv in Hw; injection Hw as <-|destruct (W j w N Hw) as [Fw _]; clear - Fw; destruct w; auto; discriminate].
    clear - Fv. destruct v; auto; discriminate. }
  right. destruct p as [|h t]; [destruct k; discriminate|]. exists h, t, v. split; auto. split; [exact (NN 0%nat h eq_refl)|]. split; auto. split; [exact (NN k v Hv)|]. split.
  - intros j w Hw. destruct (Nat.eq_dec j k) as [->|N].
    + change (num (F64 m)) with f64 in *. rewrite Hv in Hw. injection Hw as <-. change (f_ltb v v = false). rewrite fin_ltb by auto. apply Rltb_ge. lra.
    + destruct (W j w N Hw) as [Fw Lw]. change (f_ltb v w = false). rewrite fin_ltb by auto. apply Rltb_ge. lra.
  - intros j w Hj Hw. left. destruct (W j w ltac:(lia) Hw) as [Fw Lw]. change (f_ltb w v = true). rewrite fin_ltb by auto. apply Rltb_lt. exact Lw.
Qed.
