(** Rounding errors of Gaussian naive Bayes scores. *)
From Coq Require Import Reals Lra Lia List.
From Flocq Require Import Core BinarySingleNaN.
From Verif Require Import Model.Py Model.Arith Model.F64 Model.XR Model.Base Model.NaiveBayes.
From Verif Require Import Spec.Matrix Spec.Reals Spec.Bayes Spec.Libm Spec.Rounding Spec.ScaleErr Spec.GaussErr.
From Verif Require Import Proofs.Lib Proofs.Laws Proofs.Round Proofs.Unit Proofs.RealLib Proofs.Bayes Proofs.SumErr Proofs.DotErr Proofs.NormErr Proofs.ExpErr Proofs.LseErr Proofs.BoostErr Proofs.ScaleErr.
Import ListNotations.
Local Open Scope R_scope.

(** Summing approximate terms. *)
Definition near (al be : R) (l : f64) (a : R) : Prop := is_finite l = true /\ Rabs (real l - a) <= al * Rabs a + be.
Lemma near_sums : forall al be ls xs, Forall2 (near al be) ls xs ->
  Rabs (Rsum (reals ls) - Rsum xs) <= al * Rasum xs + INR (length xs) * be.
Proof.
  intros al be ls xs H. induction H as [|l a ls xs [F B] H IH]; unfold reals, Rasum in *; cbn [map Rsum length INR].
  - rewrite Rminus_0_r, Rabs_R0. lra.
  - change (match length xs with O => 1 | S _ => INR (length xs) + 1 end) with (INR (S (length xs))). rewrite S_INR.
    replace (real l + Rsum (map real ls) - (a + Rsum xs)) with ((real l - a) + (Rsum (map real ls) - Rsum xs)) by ring.
    eapply Rle_trans; [apply Rabs_triang|]. lra.
Qed.
Lemma near_abs : forall al be ls xs, Forall2 (near al be) ls xs -> Rasum (reals ls) <= (1 + al) * Rasum xs + INR (length xs) * be.
Proof.
  intros al be ls xs H. induction H as [|l a ls xs [F B] H IH]; unfold reals, Rasum in *; cbn [map Rsum length INR]; [lra|].
  change (match length xs with O => 1 | S _ => INR (length xs) + 1 end) with (INR (S (length xs))). rewrite S_INR.
  assert (Rabs (real l) <= Rabs (real l - a) + Rabs a) by (replace (real l) with ((real l - a) + a) at 1 by ring; apply Rabs_triang). lra.
Qed.
Lemma near_fin : forall al be ls xs, Forall2 (near al be) ls xs -> all_finite ls.
Proof. intros al be ls xs H. induction H as [|l a ls xs [F B] H IH]; constructor; auto. Qed.
Lemma ulp_small : 0 < ulp1 <= / 1048576.
Proof. split; [apply bpow_gt_0|]. change (/ 1048576) with (bpow radix2 (-20)). apply bpow_le. lia. Qed.
Lemma n_ulp : forall n, (Z.of_nat n <= 2 ^ 40)%Z -> 0 <= INR n * ulp1 <= / 4096.
Proof.
  intros n H. pose proof ulp_small. pose proof (pos_INR n). split; [apply Rmult_le_pos; lra|].
  apply Rle_trans with (bpow radix2 40 * ulp1); [apply Rmult_le_compat_r; [lra|apply INR_le_bpow; [lia|auto]]|]. unfold ulp1. rewrite <- bpow_plus. change (/ 4096) with (bpow radix2 (-12)). apply bpow_le. lia.
Qed.
Lemma near_psum : forall (m : libm) al be ls xs, Forall2 (near al be) ls xs -> 0 <= al <= / 8 -> 0 <= be <= 1 -> (Z.of_nat (length xs) <= 2 ^ 40)%Z -> Rasum xs <= bpow radix2 1000 ->
  is_finite (@psum (F64 m) ls) = true /\
  Rabs (real (@psum (F64 m) ls) - Rsum xs) <= (al + 2 * INR (length xs) * ulp1) * Rasum xs + 2 * INR (length xs) * be.
Proof.
  intros m al be ls xs H Ha Hb LN HS. pose proof (near_sums al be ls xs H) as N1. pose proof (near_abs al be ls xs H) as N2. pose proof (near_fin al be ls xs H) as FL.
  assert (LL : length ls = length xs) by (eapply Forall2_len; exact H). pose proof (n_ulp _ LN) as NU. pose proof (Rasum_pos xs) as SP. pose proof (pos_INR (length xs)) as NP. pose proof ulp_small as US.
  assert (NB : INR (length xs) * be <= bpow radix2 40) by (rewrite <- (Rmult_1_r (bpow radix2 40)); apply Rmult_le_compat; try lra; apply INR_le_bpow; [lia|auto]).
  assert (NB0 : 0 <= INR (length xs) * be) by (apply Rmult_le_pos; lra).
  destruct (pow_up (length ls)) as [[P1 P2] P3]; [rewrite LL; cbn in *; lia|].
  destruct (fold_signed ls (f_ofZE 0 0) FL) as [F E].
  - reflexivity.
  - unfold real at 1. rewrite f_zero. cbn [B2R]. rewrite Rabs_R0, Rplus_0_l. fold (reals ls).
    assert (B1 : bpow radix2 40 <= bpow radix2 1000) by (apply bpow_le; lia).
    apply Rle_trans with (3 * bpow radix2 1000 * 2); [apply Rmult_le_compat; try lra; [apply Rasum_pos|]; nra|].
    apply Rle_trans with (8 * bpow radix2 1000); [pose proof (bpow_gt_0 radix2 1000); lra|]. change 8 with (bpow radix2 3). rewrite <- bpow_plus. apply bpow_le. lia.
  - split; [exact F|]. change (@psum (F64 m) ls) with (fold_left f_add ls (f_ofZE 0 0)). unfold real at 2 4 in E. rewrite f_zero in *. cbn [B2R] in E. rewrite Rabs_R0, !Rplus_0_l in E. fold (reals ls) in E.
    set (v := fold_left f_add ls (B754_zero false)) in *. rewrite LL in *. set (n := INR (length xs)) in *.
    replace (real v - Rsum xs) with ((real v - Rsum (reals ls)) + (Rsum (reals ls) - Rsum xs)) by ring. eapply Rle_trans; [apply Rabs_triang|].
    assert (Q1 : ((1 + u) ^ length xs - 1) * Rasum (reals ls) <= n * ulp1 * ((1 + al) * Rasum xs + n * be)) by (apply Rmult_le_compat; try lra; apply Rasum_pos).
    assert (Q2 : n * ulp1 * ((1 + al) * Rasum xs + n * be) <= 9/8 * (n * ulp1 * Rasum xs) + / 4096 * (n * be)).
    { assert (n * ulp1 * (n * be) <= / 4096 * (n * be)) by (apply Rmult_le_compat_r; lra). assert (0 <= n * ulp1 * Rasum xs) by (apply Rmult_le_pos; lra). assert (n * ulp1 * ((1 + al) * Rasum xs) = (1 + al) * (n * ulp1 * Rasum xs)) by ring. nra. }
    assert (0 <= n * ulp1 * Rasum xs) by (apply Rmult_le_pos; lra). lra.
Qed.

(** log(2 * pi * s) *)
Definition TWOPI : f64 := f_mul (f_ofZE 2 0) (f_ofZE 7074237752028440 (-51)).
Lemma TWOPI_val : is_finite TWOPI = true /\ real TWOPI = 2 * pi64.
Proof.
  assert (H : B2SF TWOPI = SpecFloat.S754_finite false 7074237752028440 (-50)) by (vm_compute; reflexivity).
  destruct (real_SF _ _ _ _ H) as [F V]. split; auto. rewrite V. unfold pi64. rewrite bpow_powerRZ. change (IZR radix2) with 2.
  change (powerRZ 2 (-51)) with (/ 2 ^ 51). change (powerRZ 2 (-50)) with (/ 2 ^ 50). field.
Qed.
Lemma pi64_range : 3 <= pi64 <= 4.
Proof. unfold pi64. change (powerRZ 2 (-51)) with (/ 2 ^ 51). split; lra. Qed.
Lemma log_term : forall (m : libm) dl (s : F64 m), log_accurate m dl -> 0 <= dl <= / 4096 -> is_finite (s : f64) = true -> bpow radix2 (-390) <= real s <= bpow radix2 390 ->
  exists l, safe_log (mul (mul (ofZ 2) math_pi) s) = Ok l /\ near dl (3 * ulp1) l (ln (2 * pi64 * real s)).
Proof.
  intros m dl s HL Hdl Fs Bs. destruct TWOPI_val as [FT VT]. pose proof pi64_range as PR. pose proof ulp_small as US. pose proof (bpow_gt_0 radix2 (-390)) as B0.
  assert (SP : sized_prod (real TWOPI * real s)).
  { right. rewrite VT, Rabs_pos_eq by (apply Rmult_le_pos; lra). split.
    - apply Rle_trans with (bpow radix2 (-390)); [apply bpow_le; lia|]. nra.
    - apply Rle_trans with (8 * bpow radix2 390); [nra|]. change 8 with (bpow radix2 3). rewrite <- bpow_plus. apply bpow_le. lia. }
  destruct (mul_rel TWOPI s FT Fs SP) as [FM CM]. rewrite VT in CM. set (a := 2 * pi64 * real s) in *.
  assert (PA : 0 < a) by (unfold a; apply Rmult_lt_0_compat; lra). rewrite (Rabs_pos_eq a) in CM by lra.
  set (y := f_mul TWOPI s) in *. assert (PY : 0 < real y) by (apply abs_bound in CM; nra).
  destruct (safe_log_err m dl y HL (proj1 Hdl) FM PY) as (l & El & Fl & Cl). exists l. split; [exact El|]. split; auto.
  assert (LN : Rabs (ln (real y) - ln a) <= 2 * ulp1).
  { replace (ln (real y) - ln a) with (ln (real y / a)) by (unfold Rdiv; rewrite ln_mult, ln_Rinv by (auto using Rinv_0_lt_compat); ring). apply ln_near; [lra|]. replace (real y / a - 1) with ((real y - a) / a) by (field; lra). unfold Rdiv. rewrite Rabs_mult, (Rabs_pos_eq (/ a)) by (left; apply Rinv_0_lt_compat; auto).
    apply Rmult_le_reg_r with a; auto. rewrite Rmult_assoc, Rinv_l by lra. lra. }
  assert (LA : Rabs (ln (real y)) <= Rabs (ln a) + 2 * ulp1) by (replace (ln (real y)) with ((ln (real y) - ln a) + ln a) by ring; eapply Rle_trans; [apply Rabs_triang|lra]).
  replace (real l - ln a) with ((real l - ln (real y)) + (ln (real y) - ln a)) by ring. eapply Rle_trans; [apply Rabs_triang|].
  assert (T : tiny <= / 4 * ulp1) by (change (/ 4) with (bpow radix2 (-2)); unfold tiny, ulp1; rewrite <- bpow_plus; apply bpow_le; lia).
  assert (dl * Rabs (ln (real y)) <= dl * (Rabs (ln a) + 2 * ulp1)) by (apply Rmult_le_compat_l; lra). nra.
Qed.

(** (x - t)^2 / s *)
Lemma sq_term : forall (m : libm) (x t s q : F64 m), is_finite (x : f64) = true -> is_finite (t : f64) = true -> is_finite (s : f64) = true ->
  Rabs (real x) <= bpow radix2 190 -> Rabs (real t) <= bpow radix2 190 -> bpow radix2 (-390) <= real s <= bpow radix2 390 -> sq_dist x t s q ->
  near (3 * ulp1) ulp1 q ((real x - real t) * (real x - real t) / real s) /\ 0 <= (real x - real t) * (real x - real t) / real s <= bpow radix2 780.
Proof.
  intros m x t s q Fx Ft Fs Bx Bt Bs (d & Ed & Eq). pose proof ulp_small as US. rewrite ulp1_u in US. pose proof u_pos as U0. pose proof eta_pos as E0.
  assert (B1 : bpow radix2 191 = bpow radix2 190 + bpow radix2 190) by (change 191%Z with (1 + 190)%Z; rewrite bpow_plus; change (bpow radix2 1) with 2; ring).
  destruct (sub_fits x t Fx Ft) as (Fd & d1 & H1 & R1).
  { apply huge_1020. split; [pose proof (Rabs_pos (real x)); pose proof (Rabs_pos (real t)); lra|]. apply Rle_trans with (bpow radix2 191); [lra|unfold huge; apply bpow_le; lia]. }
  set (D := real x - real t) in *. assert (BD : Rabs D <= bpow radix2 191). { unfold D. eapply Rle_trans; [apply Rabs_triang|]. rewrite Rabs_Ropp. lra. }
  assert (BDD : 0 <= D * D <= bpow radix2 382). { split; [nra|]. replace (D * D) with (Rabs D * Rabs D) by (unfold Rabs; destruct (Rcase_abs D); ring). change 382%Z with (191 + 191)%Z. rewrite bpow_plus. apply Rmult_le_compat; auto using Rabs_pos. }
  apply abs_bound in H1. assert (BW : Rabs (real (f_sub x t) * real (f_sub x t)) <= bpow radix2 384).
  { rewrite R1, Rabs_pos_eq by nra. replace (D * (1 + d1) * (D * (1 + d1))) with (D * D * ((1 + d1) * (1 + d1))) by ring. apply Rle_trans with (bpow radix2 382 * 4); [apply Rmult_le_compat; nra|]. change 4 with (bpow radix2 2). rewrite <- bpow_plus. apply bpow_le. lia. }
  destruct (mul_fits (f_sub x t) (f_sub x t) Fd Fd) as (Fm & d2 & e2 & H2 & H3 & R2); [eapply Rle_trans; [exact BW|apply bpow_le; lia]|].
  change (@sqr (F64 m)) with f_sqr in Ed. change (@sub (F64 m)) with f_sub in Ed. unfold f_sqr in Ed. change (Bmult mode_NE) with f_mul in Ed. cbv zeta in Ed. rewrite Fd, Fm in Ed. cbn in Ed. injection Ed as <-.
  change (@div (F64 m)) with f_div in Eq. pose proof (bpow_gt_0 radix2 (-390)) as P390. assert (PS : 0 < real s) by lra. set (I := / real s). assert (I0 : 0 < I) by (apply Rinv_0_lt_compat; auto).
  assert (BI : I <= bpow radix2 390) by (unfold I; replace (bpow radix2 390) with (/ bpow radix2 (-390)) by (rewrite <- bpow_opp; reflexivity); apply Rinv_le; [apply bpow_gt_0|lra]).
  set (Q := D * D / real s). assert (EQ : Q = D * D * I) by reflexivity. assert (BQ : 0 <= Q <= bpow radix2 780).
  { rewrite EQ. split; [apply Rmult_le_pos; lra|]. apply Rle_trans with (bpow radix2 382 * bpow radix2 390); [apply Rmult_le_compat; lra|]. rewrite <- bpow_plus. apply bpow_le. lia. }
  split; [|exact BQ]. apply abs_bound in H2. apply abs_bound in H3.
  assert (EI : eta * I <= bpow radix2 (-600)). { apply Rle_trans with (eta * bpow radix2 390); [apply Rmult_le_compat_l; lra|]. unfold eta. rewrite <- bpow_plus. apply bpow_le. lia. }
  assert (E6 : bpow radix2 (-600) <= / 8 * u) by (change (/ 8) with (bpow radix2 (-3)); unfold u; rewrite <- bpow_plus; apply bpow_le; lia).
  assert (E7 : eta <= / 8 * u) by (change (/ 8) with (bpow radix2 (-3)); unfold u, eta; rewrite <- bpow_plus; apply bpow_le; lia).
  set (k := (1 + d1) * (1 + d1) * (1 + d2)).
  assert (KB : 1 - 4 * u <= k <= 1 + 4 * u). { unfold k. assert (1 - 2 * u <= (1 + d1) * (1 + d1) <= 1 + 2 * u + u * u) by nra. set (k1 := (1 + d1) * (1 + d1)) in *. nra. }
  assert (VQ : real (f_mul (f_sub x t) (f_sub x t)) / real s = Q * k + e2 * I).
  { rewrite R2, R1. unfold Rdiv. fold I. rewrite EQ. unfold k. ring. }
  assert (AE : Rabs (e2 * I) <= / 8 * u). { rewrite Rabs_mult, (Rabs_pos_eq I) by lra. apply Rle_trans with (eta * I); [apply Rmult_le_compat_r; [lra|apply Rabs_le; lra]|lra]. }
  destruct (div_fits _ _ _ Fm Fs Eq) as (Fq & d3 & e3 & H4 & H5 & R3).
  { rewrite VQ. eapply Rle_trans; [apply Rabs_triang|]. rewrite Rabs_mult, (Rabs_pos_eq Q), (Rabs_pos_eq k) by lra. assert (1 <= bpow radix2 780) by (change 1 with (bpow radix2 0); apply bpow_le; lia).
    apply Rle_trans with (4 * bpow radix2 780); [nra|]. change 4 with (bpow radix2 2). rewrite <- bpow_plus. apply bpow_le. lia. }
  split; auto. rewrite R3, VQ. rewrite (Rabs_pos_eq Q) by lra. apply abs_bound in H4. apply abs_bound in H5. apply abs_bound in AE. set (w := e2 * I) in *. rewrite ulp1_u.
  replace ((Q * k + w) * (1 + d3) + e3 - Q) with (Q * (k * (1 + d3) - 1) + w * (1 + d3) + e3) by ring.
  assert (A1 : Rabs (Q * (k * (1 + d3) - 1)) <= Q * (6 * u)) by (rewrite Rabs_mult, (Rabs_pos_eq Q) by lra; apply Rmult_le_compat_l; [lra|]; apply Rabs_le; nra).
  assert (A2 : Rabs (w * (1 + d3)) <= / 4 * u) by (apply Rabs_le; nra). assert (A3 : Rabs e3 <= / 8 * u) by (apply Rabs_le; lra).
  eapply Rle_trans; [apply Rabs_triang|]. eapply Rle_trans; [apply Rplus_le_compat_r, Rabs_triang|]. lra.
Qed.

(** The whole score. *)
Lemma ln_size : forall x k, bpow radix2 (- k) <= x <= bpow radix2 k -> (0 <= k)%Z -> Rabs (ln x) <= IZR k.
Proof.
  intros x k [H1 H2] Hk. pose proof (bpow_gt_0 radix2 (- k)) as B0. assert (L2 : 0 < ln 2 <= 1).
  { split; [rewrite <- ln_1; apply ln_increasing; lra|]. pose proof (exp_ineq1_le 1). pose proof ln2_le. lra. }
  assert (EB : forall e, ln (bpow radix2 e) = IZR e * ln 2) by (intro e; rewrite bpow_exp, ln_exp; reflexivity).
  assert (X0 : 0 < x) by lra. apply IZR_le in Hk. apply ln_le in H1; [|lra]. apply ln_le in H2; [|lra]. rewrite EB in H1, H2. rewrite opp_IZR in H1. apply Rabs_le. nra.
Qed.
Lemma logs_near : forall (m : libm) dl (sg ls : list (F64 m)), log_accurate m dl -> 0 <= dl <= / 4096 ->
  Forall (fun s : f64 => is_finite s = true /\ bpow radix2 (-390) <= real s <= bpow radix2 390) sg ->
  Forall2 (fun s l => safe_log (mul (mul (ofZ 2) math_pi) s) = Ok l) sg ls ->
  Forall2 (near dl (3 * ulp1)) ls (map (fun s => ln (2 * pi64 * real s)) sg) /\ Rasum (map (fun s => ln (2 * pi64 * real s)) sg) <= INR (length sg) * 400.
Proof.
  intros m dl sg ls HL Hdl B H. induction H as [|s l sg ls E H IH]; [split; [constructor|unfold Rasum; cbn; lra]|].
  destruct (Forall_inv B) as [Fs Bs]. destruct (IH (Forall_inv_tail B)) as [I1 I2].
  destruct (log_term m dl s HL Hdl Fs Bs) as (l' & El & Nl). assert (l' = l) by (pose proof (eq_trans (eq_sym El) E) as Q; injection Q; auto). subst l'.
  split; [constructor; auto|]. unfold Rasum in *. cbn [map Rsum length]. rewrite S_INR.
  assert (Rabs (ln (2 * pi64 * real s)) <= 400).
  { pose proof pi64_range. pose proof (bpow_gt_0 radix2 (-390)). apply (ln_size _ 400); [|lia]. split.
    - apply Rle_trans with (bpow radix2 (-390)); [apply bpow_le; lia|]. nra.
    - apply Rle_trans with (8 * bpow radix2 390); [nra|]. change 8 with (bpow radix2 3). rewrite <- bpow_plus. apply bpow_le. lia. }
  lra.
Qed.
Definition Rsqs (row th sg : list R) : list R := map (fun p => (fst p - fst (snd p)) * (fst p - fst (snd p)) / snd (snd p)) (combine row (combine th sg)).
Lemma sqs_near : forall (m : libm) (row th sg qs : list (F64 m)), length sg = length row -> length th = length row -> length qs = length row ->
  Forall (fun s : f64 => is_finite s = true /\ bpow radix2 (-390) <= real s <= bpow radix2 390) sg ->
  Forall (fun t : f64 => is_finite t = true /\ Rabs (real t) <= bpow radix2 190) th -> Forall (fun t : f64 => is_finite t = true /\ Rabs (real t) <= bpow radix2 190) row ->
  (forall j x q, nth_error row j = Some x -> nth_error qs j = Some q -> exists t s, nth_error th j = Some t /\ nth_error sg j = Some s /\ sq_dist x t s q) ->
  Forall2 (near (3 * ulp1) ulp1) qs (Rsqs (reals row) (reals th) (reals sg)) /\ Forall (fun q => 0 <= q <= bpow radix2 780) (Rsqs (reals row) (reals th) (reals sg)).
Proof.
  intros m row. induction row as [|x row IH]; intros th sg qs L1 L2 L3 B1 B2 B3 H; destruct sg as [|s sg]; destruct th as [|t th]; destruct qs as [|q qs]; cbn in L1, L2, L3; try lia; [split; constructor|].
  destruct (H 0%nat x q eq_refl eq_refl) as (t' & s' & H1 & H2 & SQ). cbn in H1, H2. injection H1 as <-. injection H2 as <-.
  destruct (Forall_inv B1). destruct (Forall_inv B2). destruct (Forall_inv B3). destruct (sq_term m x t s q) as [N R]; auto.
  destruct (IH th sg qs) as [I1 I2]; try lia; eauto using Forall_inv_tail. { intros j x' q' Hx Hq. exact (H (S j) x' q' Hx Hq). }
  unfold Rsqs, reals in *. cbn [map combine]. split; constructor; auto.
Qed.
Lemma Rasum_nonneg : forall B l, Forall (fun q => 0 <= q <= B) l -> Rasum l = Rsum l /\ 0 <= Rsum l <= INR (length l) * B.
Proof.
  intros B l H. induction H as [|q l [H1 H2] H [I1 I2]]; unfold Rasum in *; cbn [map Rsum length]; [cbn; lra|]. rewrite S_INR, I1, Rabs_pos_eq by auto. split; lra.
Qed.
Lemma Rsum_Rasum : forall l, Rabs (Rsum l) <= Rasum l.
Proof.
  induction l as [|x l IH]; unfold Rasum in *; cbn [map Rsum]; [rewrite Rabs_R0; lra|]. eapply Rle_trans; [apply Rabs_triang|lra].
Qed.
Lemma half_mul : forall (h : f64) c S, is_finite h = true -> Rabs (real h) = / 2 -> c = real h -> is_finite S = true -> Rabs (real S) <= bpow radix2 1000 ->
  is_finite (f_mul h S) = true /\ Rabs (real (f_mul h S) - c * real S) <= u * (/ 2 * Rabs (real S)) + eta.
Proof.
  intros h c S Fh Vh -> FS BS. destruct (mul_fits h S Fh FS) as (F & d & e & Hd & He & R).
  - rewrite Rabs_mult, Vh. apply Rle_trans with (bpow radix2 1000); [pose proof (Rabs_pos (real S)); lra|apply bpow_le; lia].
  - split; auto. rewrite R. replace (real h * real S * (1 + d) + e - real h * real S) with (d * (real h * real S) + e) by ring. eapply Rle_trans; [apply Rabs_triang|].
    rewrite !Rabs_mult, Vh. apply Rplus_le_compat; auto. apply Rmult_le_compat_r; auto. pose proof (Rabs_pos (real S)); lra.
Qed.
Lemma rel_diff : forall x d, Rabs d <= u -> Rabs (x * (1 + d) - x) <= u * Rabs x.
Proof. intros x d H. replace (x * (1 + d) - x) with (d * x) by ring. rewrite Rabs_mult. apply Rmult_le_compat_r; auto using Rabs_pos. Qed.
Lemma assemble : forall (h1 h2 S1 S2 lp : f64), is_finite h1 = true -> is_finite h2 = true -> real h1 = - / 2 -> real h2 = / 2 ->
  is_finite S1 = true -> is_finite S2 = true -> is_finite lp = true -> Rabs (real S1) <= bpow radix2 1000 -> Rabs (real S2) <= bpow radix2 1000 -> Rabs (real lp) <= bpow radix2 1000 ->
  is_finite (f_add (f_sub (f_mul h1 S1) (f_mul h2 S2)) lp) = true /\
  Rabs (real (f_add (f_sub (f_mul h1 S1) (f_mul h2 S2)) lp) - (- / 2 * real S1 - / 2 * real S2 + real lp)) <= 2 * ulp1 * (/ 2 * Rabs (real S1) + / 2 * Rabs (real S2) + Rabs (real lp)) + / 8 * ulp1.
Proof.
  intros h1 h2 S1 S2 lp F1 F2 V1 V2 FS1 FS2 Fl B1 B2 B3. pose proof ulp_small as US. rewrite ulp1_u in *. pose proof u_pos as U0. pose proof eta_pos as E0.
  assert (E7 : eta <= / 1024 * u) by (change (/ 1024) with (bpow radix2 (-10)); unfold u, eta; rewrite <- bpow_plus; apply bpow_le; lia).
  assert (BB : 1 <= bpow radix2 1000) by (change 1 with (bpow radix2 0); apply bpow_le; lia).
  assert (BM : 16 * bpow radix2 1000 <= bpow radix2 1020) by (change 16 with (bpow radix2 4); rewrite <- bpow_plus; apply bpow_le; lia).
  destruct (half_mul h1 _ S1 F1 ltac:(rewrite V1, Rabs_Ropp, Rabs_pos_eq; lra) eq_refl FS1 B1) as [FA RA]. destruct (half_mul h2 _ S2 F2 ltac:(rewrite V2, Rabs_pos_eq; lra) eq_refl FS2 B2) as [FB RB].
  rewrite V1 in RA. rewrite V2 in RB. set (A := f_mul h1 S1) in *. set (B := f_mul h2 S2) in *.
  set (a := Rabs (real S1)) in *. set (b := Rabs (real S2)) in *. set (l := Rabs (real lp)) in *. assert (Pa : 0 <= a) by apply Rabs_pos. assert (Pb : 0 <= b) by apply Rabs_pos. assert (Pl : 0 <= l) by apply Rabs_pos.
  assert (UA : u * a <= / 1024 * a) by (apply Rmult_le_compat_r; lra). assert (UB : u * b <= / 1024 * b) by (apply Rmult_le_compat_r; lra). assert (UL : u * l <= / 1024 * l) by (apply Rmult_le_compat_r; lra).
  assert (AA : Rabs (real A) <= / 2 * a * (1 + / 1024) + eta).
  { replace (real A) with ((real A - - / 2 * real S1) + - / 2 * real S1) by ring. eapply Rle_trans; [apply Rabs_triang|]. rewrite (Rabs_mult (- / 2)), Rabs_Ropp, (Rabs_pos_eq (/ 2)) by lra. fold a. lra. }
  assert (AB : Rabs (real B) <= / 2 * b * (1 + / 1024) + eta).
  { replace (real B) with ((real B - / 2 * real S2) + / 2 * real S2) by ring. eapply Rle_trans; [apply Rabs_triang|]. rewrite (Rabs_mult (/ 2)), (Rabs_pos_eq (/ 2)) by lra. fold b. lra. }
  assert (AM : Rabs (real A - real B) <= Rabs (real A) + Rabs (real B)) by (eapply Rle_trans; [apply Rabs_triang|rewrite Rabs_Ropp; lra]).
  destruct (sub_fits A B FA FB) as (FC & d3 & H3 & R3); [nra|]. set (C := f_sub A B) in *.
  pose proof (rel_diff (real A - real B) d3 H3) as D3. rewrite <- R3 in D3.
  assert (UD : u * Rabs (real A - real B) <= u * (/ 2 * a * (1 + / 1024) + / 2 * b * (1 + / 1024) + 2 * eta)) by (apply Rmult_le_compat_l; lra).
  assert (AC : Rabs (real C) <= / 2 * (a + b) * (1 + / 256) + 3 * eta).
  { replace (real C) with ((real C - (real A - real B)) + (real A - real B)) by ring. eapply Rle_trans; [apply Rabs_triang|]. assert (u * eta <= eta) by nra. nra. }
  destruct (add_fits C lp FC Fl) as (FV & d4 & H4 & R4); [fold l; nra|]. split; auto. set (v := f_add C lp) in *.
  pose proof (rel_diff (real C + real lp) d4 H4) as D4. rewrite <- R4 in D4.
  assert (UE : u * Rabs (real C + real lp) <= u * (/ 2 * (a + b) * (1 + / 256) + 3 * eta + l)) by (apply Rmult_le_compat_l; [lra|]; eapply Rle_trans; [apply Rabs_triang|]; fold l; lra).
  replace (real v - (- / 2 * real S1 - / 2 * real S2 + real lp)) with ((real v - (real C + real lp)) + (real C - (real A - real B)) + (real A - - / 2 * real S1) - (real B - / 2 * real S2)) by ring.
  eapply Rle_trans; [apply Rabs_triang|]. rewrite Rabs_Ropp. eapply Rle_trans; [apply Rplus_le_compat_r, Rabs_triang|]. eapply Rle_trans; [apply Rplus_le_compat_r, Rplus_le_compat_r, Rabs_triang|].
  assert (UE2 : u * eta <= eta) by nra. set (ua := u * a) in *. set (ub := u * b) in *.
  replace (u * (/ 2 * a * (1 + / 1024) + / 2 * b * (1 + / 1024) + 2 * eta)) with (/ 2 * (1 + / 1024) * ua + / 2 * (1 + / 1024) * ub + 2 * (u * eta)) in UD by (unfold ua, ub; ring).
  replace (u * (/ 2 * (a + b) * (1 + / 256) + 3 * eta + l)) with (/ 2 * (1 + / 256) * (ua + ub) + 3 * (u * eta) + u * l) in UE by (unfold ua, ub; ring).
  replace (u * (/ 2 * a) + eta) with (/ 2 * ua + eta) in RA by (unfold ua; ring). replace (u * (/ 2 * b) + eta) with (/ 2 * ub + eta) in RB by (unfold ub; ring).
  replace (2 * (2 * u) * (/ 2 * a + / 2 * b + l)) with (2 * ua + 2 * ub + 4 * (u * l)) by (unfold ua, ub; field).
  assert (0 <= ua) by (apply Rmult_le_pos; lra). assert (0 <= ub) by (apply Rmult_le_pos; lra). assert (0 <= u * l) by (apply Rmult_le_pos; lra). lra.
Qed.
Lemma gauss_cell : forall (m : libm) dl (p : F64 m) (sg th row : list (F64 m)) v, log_accurate m dl -> 0 <= dl <= / 4096 -> tame p sg th row -> gauss_score p sg th row v ->
  is_finite (v : f64) = true /\ Rabs (real v - exact_gauss p sg th row) <= gauss_error dl p sg th row.
Proof.
  intros m dl p sg th row v HL Hdl (Fp & Pp & L1 & L2 & LN & B1 & B2) (lp & ls & qs & Elp & Els & L3 & HQ & ->). apply Forall_app in B2. destruct B2 as [B2 B3].
  pose proof ulp_small as US. destruct (logs_near m dl sg ls HL Hdl B1 Els) as [NL GL]. destruct (sqs_near m row th sg qs L1 L2 L3 B1 B2 B3 HQ) as [NQ GQ].
  destruct (safe_log_err m dl p HL (proj1 Hdl) Fp Pp) as (lp' & El & Fl & Nl). assert (lp' = lp) by (pose proof (eq_trans (eq_sym El) Elp) as Q; injection Q; auto). subst lp'.
  set (xs := map (fun s : f64 => ln (2 * pi64 * real s)) sg) in *. set (Qs := Rsqs (reals row) (reals th) (reals sg)) in *.
  assert (LX : length xs = length row) by (unfold xs; rewrite map_length; exact L1).
  assert (LQ : length Qs = length row) by exact (eq_trans (eq_sym (Forall2_len _ _ _ NQ)) L3).
  destruct (Rasum_nonneg _ _ GQ) as [EQ PQ]. rewrite LQ in PQ. change (num (F64 m)) with f64 in *. rewrite L1 in GL. set (n := INR (length row)) in *.
  assert (N0 : 0 <= n) by apply pos_INR. assert (N40 : n <= bpow radix2 40) by (apply INR_le_bpow; [lia|auto]). pose proof (n_ulp _ LN) as NU. fold n in NU.
  assert (QB : Rsum Qs <= bpow radix2 820). { apply Rle_trans with (bpow radix2 40 * bpow radix2 780); [|rewrite <- bpow_plus; apply bpow_le; lia]. pose proof (bpow_gt_0 radix2 780). nra. }
  assert (XB : Rasum xs <= bpow radix2 820). { apply Rle_trans with (bpow radix2 40 * 512); [pose proof (bpow_gt_0 radix2 40); nra|]. change 512 with (bpow radix2 9). rewrite <- bpow_plus. apply bpow_le. lia. }
  assert (BB : 4 * bpow radix2 820 <= bpow radix2 1000) by (change 4 with (bpow radix2 2); rewrite <- bpow_plus; apply bpow_le; lia). assert (B8 : 2048 <= bpow radix2 820) by (change 2048 with (bpow radix2 11); apply bpow_le; lia).
  destruct (near_psum m dl (3 * ulp1) ls xs NL) as [FS1 E1]; [lra|lra|rewrite LX; auto|lra|].
  destruct (near_psum m (3 * ulp1) ulp1 qs Qs NQ) as [FS2 E2]; [lra|lra|rewrite LQ; auto|rewrite EQ; lra|]. rewrite LX in E1. rewrite LQ, EQ in E2. fold n in E1, E2.
  set (S1 := @psum (F64 m) ls) in *. set (S2 := @psum (F64 m) qs) in *. pose proof (Rasum_pos xs) as X0. pose proof (Rsum_Rasum xs) as XS.
  assert (T : tiny <= / 8 * ulp1) by (change (/ 8) with (bpow radix2 (-3)); unfold tiny, ulp1; rewrite <- bpow_plus; apply bpow_le; lia).
  assert (LP : Rabs (ln (real p)) <= 1074).
  { apply (ln_size _ 1074); [|lia]. rewrite <- (Rabs_pos_eq (real p)) by lra. split; [apply (abs_B2R_ge_emin 53 1024 p); destruct p; try discriminate; auto; cbn in Pp; lra|].
    apply Rlt_le. eapply Rlt_le_trans; [apply (abs_B2R_lt_emax 53 1024 p)|apply bpow_le; lia]. }
  set (P := Rabs (ln (real p))) in *. assert (P0 : 0 <= P) by apply Rabs_pos.
  assert (AL : Rabs (real lp) <= P + Rabs (real lp - ln (real p))) by (replace (real lp) with (ln (real p) + (real lp - ln (real p))) at 1 by ring; apply Rabs_triang).
  assert (A1 : Rabs (real S1) <= Rasum xs + Rabs (real S1 - Rsum xs)) by (replace (real S1) with (Rsum xs + (real S1 - Rsum xs)) at 1 by ring; eapply Rle_trans; [apply Rabs_triang|lra]).
  assert (A2 : Rabs (real S2) <= Rsum Qs + Rabs (real S2 - Rsum Qs)) by (replace (real S2) with (Rsum Qs + (real S2 - Rsum Qs)) at 1 by ring; eapply Rle_trans; [apply Rabs_triang|rewrite (Rabs_pos_eq (Rsum Qs)); lra]).
  set (GX := Rasum xs) in *. set (GS := Rsum Qs) in *.
  assert (K1 : (dl + 2 * n * ulp1) * GX <= / 1024 * GX) by (apply Rmult_le_compat_r; lra). assert (K2 : (3 * ulp1 + 2 * n * ulp1) * GS <= / 1024 * GS) by (apply Rmult_le_compat_r; lra).
  assert (K3 : dl * P <= / 1024 * P) by (apply Rmult_le_compat_r; lra).
  assert (HM : is_finite (f_ofZE (-1) (-1)) = true /\ real (f_ofZE (-1) (-1)) = - / 2).
  { assert (H : B2SF (f_ofZE (-1) (-1)) = SpecFloat.S754_finite true 4503599627370496 (-53)) by (vm_compute; reflexivity). destruct (real_SF _ _ _ _ H) as [F V]. split; auto. rewrite V. rewrite bpow_powerRZ. change (IZR radix2) with 2. change (powerRZ 2 (-53)) with (/ 2 ^ 53). cbn [Z.opp]. lra. }
  assert (HP : is_finite (f_ofZE 1 (-1)) = true /\ real (f_ofZE 1 (-1)) = / 2).
  { assert (H : B2SF (f_ofZE 1 (-1)) = SpecFloat.S754_finite false 4503599627370496 (-53)) by (vm_compute; reflexivity). destruct (real_SF _ _ _ _ H) as [F V]. split; auto. rewrite V. rewrite bpow_powerRZ. change (IZR radix2) with 2. change (powerRZ 2 (-53)) with (/ 2 ^ 53). lra. }
  destruct HM as [FM VM]. destruct HP as [FP VP].
  destruct (assemble _ _ S1 S2 lp FM FP VM VP FS1 FS2 Fl) as [FV EV]; [lra|lra|lra|]. split; [exact FV|].
  change (@add (F64 m)) with f_add. change (@sub (F64 m)) with f_sub. change (@mul (F64 m)) with f_mul. change (@ofZE (F64 m)) with f_ofZE.
  set (v := f_add (f_sub (f_mul (f_ofZE (-1) (-1)) S1) (f_mul (f_ofZE 1 (-1)) S2)) lp) in *.
  assert (EX : exact_gauss p sg th row = ln (real p) - / 2 * Rsum xs - / 2 * GS). { unfold exact_gauss, Rgauss, xs, GS, Qs, Rsqs, Rsq_dists, reals. rewrite map_map. reflexivity. }
  assert (ES : gauss_size p sg th row = P + / 2 * GX + / 2 * GS). { unfold gauss_size, GX, Rasum, xs, P, GS, Qs, Rsqs, Rsq_dists, reals. rewrite map_map. reflexivity. }
  unfold gauss_error. rewrite EX, ES. fold n.
  replace (real v - (ln (real p) - / 2 * Rsum xs - / 2 * GS)) with ((real v - (- / 2 * real S1 - / 2 * real S2 + real lp)) + (real lp - ln (real p)) - / 2 * (real S1 - Rsum xs) - / 2 * (real S2 - GS)) by field.
  set (e1 := Rabs (real S1 - Rsum xs)) in *. set (e2 := Rabs (real S2 - GS)) in *. set (e3 := Rabs (real lp - ln (real p))) in *.
  apply Rle_trans with (2 * ulp1 * (/ 2 * Rabs (real S1) + / 2 * Rabs (real S2) + Rabs (real lp)) + / 8 * ulp1 + e3 + / 2 * e1 + / 2 * e2).
  { eapply Rle_trans; [apply Rabs_triang|]. rewrite Rabs_Ropp, (Rabs_mult (/ 2)), (Rabs_pos_eq (/ 2)) by lra. fold e2. apply Rplus_le_compat_r. eapply Rle_trans; [apply Rabs_triang|]. rewrite Rabs_Ropp, (Rabs_mult (/ 2)), (Rabs_pos_eq (/ 2)) by lra. fold e1. apply Rplus_le_compat_r.
    eapply Rle_trans; [apply Rabs_triang|]. fold e3. lra. }
  assert (U1 : 2 * ulp1 * (/ 2 * Rabs (real S1) + / 2 * Rabs (real S2) + Rabs (real lp)) <= 2 * ulp1 * (5 / 4 * (P + / 2 * GX + / 2 * GS) + 4 * n * ulp1 + ulp1)).
  { apply Rmult_le_compat_l; [lra|]. lra. }
  assert (U2 : ulp1 * (n * ulp1) <= ulp1 * / 4096) by (apply Rmult_le_compat_l; lra). assert (U3 : ulp1 * ulp1 <= ulp1 * / 4096) by (apply Rmult_le_compat_l; lra).
  assert (G0 : 0 <= ulp1 * P) by (apply Rmult_le_pos; lra). assert (G1 : 0 <= ulp1 * GX) by (apply Rmult_le_pos; lra). assert (G2 : 0 <= ulp1 * GS) by (apply Rmult_le_pos; lra).
  assert (G3 : 0 <= n * ulp1 * P) by (apply Rmult_le_pos; lra). assert (G4 : 0 <= n * ulp1 * GX) by (apply Rmult_le_pos; lra). assert (G5 : 0 <= n * ulp1 * GS) by (apply Rmult_le_pos; lra).
  assert (G6 : 0 <= dl * GS) by (apply Rmult_le_pos; lra). assert (G7 : 0 <= dl * GX) by (apply Rmult_le_pos; lra). assert (G8 : 0 <= dl * P) by (apply Rmult_le_pos; lra).
  lra.
Qed.
