(** Rounding errors of one scaled cell. *)
From Coq Require Import Reals Lra Lia List.
From Flocq Require Import Core BinarySingleNaN.
From Verif Require Import Model.Py Model.Arith Model.F64 Model.XR Spec.Reals Spec.Rounding Spec.Scaling Spec.ScaleErr.
From Verif Require Import Proofs.Lib Proofs.Laws Proofs.RealLib Proofs.Round Proofs.SumErr Proofs.DotErr Proofs.NormErr Proofs.ExpErr.
Local Open Scope R_scope.

Lemma abs_bound : forall a b, Rabs a <= b -> - b <= a <= b.
Proof. intros a b H. unfold Rabs in H. destruct (Rcase_abs a); lra. Qed.
Lemma huge_1020 : forall a, 0 <= a <= huge -> a * (1 + u) <= bpow radix2 1020.
Proof.
  intros a H. pose proof u_pos. pose proof u_le. assert (B : 2 * huge <= bpow radix2 1020).
  { unfold huge. change 2 with (bpow radix2 1). rewrite <- bpow_plus. apply bpow_le. lia. }
  nra.
Qed.

(** (x - t) / s *)
Lemma std_cell : forall x t s : f64, is_finite x = true -> is_finite t = true -> is_finite s = true -> real s <> 0 ->
  Rabs (real x) + Rabs (real t) <= huge -> Rabs ((real x - real t) / real s) <= bpow radix2 990 ->
  exists v, f_div (f_sub x t) s = Ok v /\ is_finite v = true /\
    Rabs (real v - (real x - real t) / real s) <= 2 * ulp1 * Rabs ((real x - real t) / real s) + tiny.
Proof.
  intros x t s Fx Ft Fs NS H1 H2. pose proof u_pos as U0. pose proof u_le as U1. pose proof eta_pos as E0.
  destruct (sub_fits x t Fx Ft) as (Fd & d & Hd & Rd).
  { apply huge_1020. split; auto. pose proof (Rabs_pos (real x)). pose proof (Rabs_pos (real t)). lra. }
  set (q := (real x - real t) / real s) in *.
  assert (Q : real (f_sub x t) / real s = q * (1 + d)) by (rewrite Rd; unfold q; field; auto).
  destruct (f_div (f_sub x t) s) as [v|e] eqn:EV.
  - destruct (div_fits (f_sub x t) s v Fd Fs EV) as (Fv & d2 & e2 & H3 & H4 & Rv).
    { rewrite Q, Rabs_mult. apply abs_bound in Hd. assert (Rabs (1 + d) <= 2) by (rewrite Rabs_right; lra).
      apply Rle_trans with (bpow radix2 990 * 2); [apply Rmult_le_compat; auto using Rabs_pos|].
      change 2 with (bpow radix2 1). rewrite <- bpow_plus. apply bpow_le. lia. }
    exists v. split; auto. split; auto. rewrite Rv, Q.
    replace (q * (1 + d) * (1 + d2) + e2 - q) with (q * (d + d2 + d * d2) + e2) by ring.
    eapply Rle_trans; [apply Rabs_triang|]. rewrite Rabs_mult.
    assert (A : Rabs (d + d2 + d * d2) <= 2 * ulp1).
    { rewrite ulp1_u. eapply Rle_trans; [apply Rabs_triang|]. eapply Rle_trans; [apply Rplus_le_compat_r, Rabs_triang|]. rewrite Rabs_mult.
      pose proof (Rabs_pos d). pose proof (Rabs_pos d2). nra. }
    assert (B : Rabs e2 <= tiny) by (rewrite tiny_eta; lra). pose proof (Rabs_pos q). rewrite (Rmult_comm (2 * ulp1)).
    apply Rplus_le_compat; auto. apply Rmult_le_compat_l; auto.
  - exfalso. pose proof (f_div_x (f_sub x t) s) as X. rewrite EV, (b2x_fin s Fs), (b2x_fin _ Fd) in X. cbn [rmap x_div] in X.
    fold (real s) in X. destruct (Reqb (real s) 0) eqn:Z; [|discriminate]. apply Reqb_eq in Z. auto.
Qed.

(** x * s + b *)
Lemma affine_cell : forall x s b : f64, is_finite x = true -> is_finite s = true -> is_finite b = true ->
  Rabs (real x * real s) + Rabs (real b) <= bpow radix2 1000 ->
  is_finite (f_add (f_mul x s) b) = true /\
  Rabs (real (f_add (f_mul x s) b) - (real x * real s + real b)) <= 2 * ulp1 * (Rabs (real x * real s) + Rabs (real b)) + tiny.
Proof.
  intros x s b Fx Fs Fb H. pose proof u_pos as U0. pose proof u_le as U1. pose proof eta_pos as E0. pose proof eta_small as E1.
  pose proof (Rabs_pos (real x * real s)) as PX. pose proof (Rabs_pos (real b)) as PB.
  destruct (mul_fits x s Fx Fs) as (Fm & d & e & Hd & He & Rm).
  { apply Rle_trans with (bpow radix2 1000); [lra|apply bpow_le; lia]. }
  set (p := real x * real s) in *. assert (PM : Rabs (real (f_mul x s)) <= Rabs p * (1 + u) + eta).
  { rewrite Rm. eapply Rle_trans; [apply Rabs_triang|]. rewrite Rabs_mult. apply Rplus_le_compat; auto. apply Rmult_le_compat_l; auto. eapply Rle_trans; [apply Rabs_triang|]. rewrite Rabs_R1. lra. }
  assert (B1 : 1 <= bpow radix2 1000) by (change 1 with (bpow radix2 0); apply bpow_le; lia).
  assert (B2 : 4 * bpow radix2 1000 <= bpow radix2 1020) by (change 4 with (bpow radix2 2); rewrite <- bpow_plus; apply bpow_le; lia).
  destruct (add_fits (f_mul x s) b Fm Fb) as (Fa & d2 & Hd2 & Ra).
  { assert (Rabs (real (f_mul x s)) + Rabs (real b) <= 2 * bpow radix2 1000) by nra. nra. }
  split; auto. rewrite Ra, Rm. replace ((p * (1 + d) + e + real b) * (1 + d2) - (p + real b)) with (p * (d + d2 + d * d2) + real b * d2 + e * (1 + d2)) by ring.
  eapply Rle_trans; [apply Rabs_triang|]. eapply Rle_trans; [apply Rplus_le_compat_r, Rabs_triang|]. rewrite !Rabs_mult.
  assert (X1 : Rabs (d + d2 + d * d2) <= 2 * ulp1).
  { rewrite ulp1_u. eapply Rle_trans; [apply Rabs_triang|]. eapply Rle_trans; [apply Rplus_le_compat_r, Rabs_triang|]. rewrite Rabs_mult.
    pose proof (Rabs_pos d). pose proof (Rabs_pos d2). nra. }
  assert (X2 : Rabs (1 + d2) <= 2) by (eapply Rle_trans; [apply Rabs_triang|]; rewrite Rabs_R1; lra).
  assert (X3 : Rabs d2 <= 2 * ulp1) by (rewrite ulp1_u; lra).
  rewrite tiny_eta. pose proof (Rabs_pos e). pose proof (Rabs_pos (1 + d2)).
  assert (Rabs p * Rabs (d + d2 + d * d2) <= Rabs p * (2 * ulp1)) by (apply Rmult_le_compat_l; auto).
  assert (Rabs (real b) * Rabs d2 <= Rabs (real b) * (2 * ulp1)) by (apply Rmult_le_compat_l; auto).
  assert (Rabs e * Rabs (1 + d2) <= eta * 2) by (apply Rmult_le_compat; auto). lra.
Qed.

(** x / s *)
Lemma div_cell : forall x s : f64, is_finite x = true -> is_finite s = true -> real s <> 0 -> Rabs (real x / real s) <= bpow radix2 990 ->
  exists v, f_div x s = Ok v /\ is_finite v = true /\ Rabs (real v - real x / real s) <= ulp1 * Rabs (real x / real s) + tiny.
Proof.
  intros x s Fx Fs NS H. pose proof u_pos as U0. pose proof eta_pos as E0.
  destruct (f_div x s) as [v|e] eqn:EV.
  - destruct (div_fits x s v Fx Fs EV) as (Fv & d & e & H3 & H4 & Rv); [apply Rle_trans with (bpow radix2 990); auto; apply bpow_le; lia|].
    exists v. split; auto. split; auto. rewrite Rv. set (q := real x / real s) in *. replace (q * (1 + d) + e - q) with (q * d + e) by ring.
    eapply Rle_trans; [apply Rabs_triang|]. rewrite Rabs_mult, ulp1_u, tiny_eta. pose proof (Rabs_pos q). nra.
  - exfalso. pose proof (f_div_x x s) as X. rewrite EV, (b2x_fin s Fs), (b2x_fin _ Fx) in X. cbn [rmap x_div] in X.
    fold (real s) in X. destruct (Reqb (real s) 0) eqn:Z; [|discriminate]. apply Reqb_eq in Z. auto.
Qed.

(** lo - t * s *)
Lemma affine_sub_cell : forall t s lo : f64, is_finite t = true -> is_finite s = true -> is_finite lo = true ->
  Rabs (real t * real s) + Rabs (real lo) <= bpow radix2 1000 ->
  is_finite (f_sub lo (f_mul t s)) = true /\
  Rabs (real (f_sub lo (f_mul t s)) - (real lo - real t * real s)) <= 2 * ulp1 * (Rabs (real t * real s) + Rabs (real lo)) + tiny.
Proof.
  intros x s b Fx Fs Fb H. pose proof u_pos as U0. pose proof u_le as U1. pose proof eta_pos as E0. pose proof eta_small as E1.
  pose proof (Rabs_pos (real x * real s)) as PX. pose proof (Rabs_pos (real b)) as PB.
  destruct (mul_fits x s Fx Fs) as (Fm & d & e & Hd & He & Rm).
  { apply Rle_trans with (bpow radix2 1000); [lra|apply bpow_le; lia]. }
  set (p := real x * real s) in *. assert (PM : Rabs (real (f_mul x s)) <= Rabs p * (1 + u) + eta).
  { rewrite Rm. eapply Rle_trans; [apply Rabs_triang|]. rewrite Rabs_mult. apply Rplus_le_compat; auto. apply Rmult_le_compat_l; auto. eapply Rle_trans; [apply Rabs_triang|]. rewrite Rabs_R1. lra. }
  assert (B1 : 1 <= bpow radix2 1000) by (change 1 with (bpow radix2 0); apply bpow_le; lia).
  assert (B2 : 4 * bpow radix2 1000 <= bpow radix2 1020) by (change 4 with (bpow radix2 2); rewrite <- bpow_plus; apply bpow_le; lia).
  destruct (sub_fits b (f_mul x s) Fb Fm) as (Fa & d2 & Hd2 & Ra).
  { assert (Rabs (real b) + Rabs (real (f_mul x s)) <= 2 * bpow radix2 1000) by nra. nra. }
  split; auto. rewrite Ra, Rm. replace ((real b - (p * (1 + d) + e)) * (1 + d2) - (real b - p)) with (- p * (d + d2 + d * d2) + real b * d2 + - e * (1 + d2)) by ring.
  eapply Rle_trans; [apply Rabs_triang|]. eapply Rle_trans; [apply Rplus_le_compat_r, Rabs_triang|]. rewrite !Rabs_mult, !Rabs_Ropp.
  assert (X1 : Rabs (d + d2 + d * d2) <= 2 * ulp1).
  { rewrite ulp1_u. eapply Rle_trans; [apply Rabs_triang|]. eapply Rle_trans; [apply Rplus_le_compat_r, Rabs_triang|]. rewrite Rabs_mult.
    pose proof (Rabs_pos d). pose proof (Rabs_pos d2). nra. }
  assert (X2 : Rabs (1 + d2) <= 2) by (eapply Rle_trans; [apply Rabs_triang|]; rewrite Rabs_R1; lra).
  assert (X3 : Rabs d2 <= 2 * ulp1) by (rewrite ulp1_u; lra).
  rewrite tiny_eta. pose proof (Rabs_pos e). pose proof (Rabs_pos (1 + d2)).
  assert (Rabs p * Rabs (d + d2 + d * d2) <= Rabs p * (2 * ulp1)) by (apply Rmult_le_compat_l; auto).
  assert (Rabs (real b) * Rabs d2 <= Rabs (real b) * (2 * ulp1)) by (apply Rmult_le_compat_l; auto).
  assert (Rabs e * Rabs (1 + d2) <= eta * 2) by (apply Rmult_le_compat; auto). lra.
Qed.

(** The scale MinMaxScaler.fit computes. *)
Lemma scale_cell : forall lo hi a z s : f64, is_finite lo = true -> is_finite hi = true -> is_finite a = true -> is_finite z = true ->
  Rabs (real lo) <= bpow radix2 300 -> Rabs (real hi) <= bpow radix2 300 -> Rabs (real a) <= bpow radix2 300 -> Rabs (real z) <= bpow radix2 300 ->
  real lo <= real hi -> bpow radix2 (-300) <= real z - real a -> f_div (f_sub hi lo) (f_sub z a) = Ok s ->
  is_finite s = true /\ let S0 := (real hi - real lo) / (real z - real a) in
  Rabs (real s - S0) <= 2 * ulp1 * S0 + eta /\ 0 <= S0 <= bpow radix2 602.
Proof.
  intros lo hi a z s Fl Fh Fa Fz Bl Bh Ba Bz LH LG E. pose proof u_pos as U0. pose proof u_le as U1.
  assert (U2 : u <= / 1024) by (change (/ 1024) with (bpow radix2 (-10)); apply bpow_le; lia).
  assert (T1 : bpow radix2 300 + bpow radix2 300 = bpow radix2 301) by (change 301%Z with (1 + 300)%Z; rewrite bpow_plus; change (bpow radix2 1) with 2; ring).
  assert (T2 : forall p q, Rabs p <= bpow radix2 300 -> Rabs q <= bpow radix2 300 -> (Rabs p + Rabs q) * (1 + u) <= bpow radix2 1020).
  { intros p q Hp Hq. apply huge_1020. split; [pose proof (Rabs_pos p); pose proof (Rabs_pos q); lra|]. apply Rle_trans with (bpow radix2 301); [lra|unfold huge; apply bpow_le; lia]. }
  destruct (sub_fits hi lo Fh Fl (T2 _ _ Bh Bl)) as (Fw & d1 & H1 & R1). destruct (sub_fits z a Fz Fa (T2 _ _ Bz Ba)) as (Fg & d2 & H2 & R2).
  assert (PG : 0 < real z - real a) by (pose proof (bpow_gt_0 radix2 (-300)); lra).
  set (S0 := (real hi - real lo) / (real z - real a)) in *.
  assert (P0 : 0 <= S0) by (unfold S0; apply Rmult_le_pos; [lra|left; apply Rinv_0_lt_compat; auto]).
  assert (B0 : S0 <= bpow radix2 602).
  { unfold S0, Rdiv. apply Rle_trans with (bpow radix2 301 * bpow radix2 300); [|rewrite <- bpow_plus; apply bpow_le; lia].
    apply abs_bound in Bl, Bh. apply Rmult_le_compat; try lra. left; apply Rinv_0_lt_compat; auto.
    replace (bpow radix2 300) with (/ bpow radix2 (-300)) by (rewrite <- bpow_opp; reflexivity). apply Rinv_le; auto. apply bpow_gt_0. }
  apply abs_bound in H1, H2.
  set (k := (1 + d1) / (1 + d2)). assert (Q : real (f_sub hi lo) / real (f_sub z a) = S0 * k) by (rewrite R1, R2; unfold S0, k; field; split; lra).
  assert (K1 : (1 + d1) = k * (1 + d2)) by (unfold k; field; lra).
  assert (KB : 1 - 2 * u - 4 * (u * u) <= k <= 1 + 2 * u + 4 * (u * u)).
  { split; [apply Rmult_le_reg_r with (1 + d2)|apply Rmult_le_reg_r with (1 + d2)]; try lra; rewrite <- K1; nra. }
  assert (KU : 4 * (u * u) <= u * / 16) by nra.
  destruct (div_fits _ _ s Fw Fg E) as (Fs & d3 & e & H3 & H4 & R3).
  { rewrite Q, Rabs_pos_eq by (apply Rmult_le_pos; lra). apply Rle_trans with (bpow radix2 602 * 2); [apply Rmult_le_compat; lra|]. change 2 with (bpow radix2 1). rewrite <- bpow_plus. apply bpow_le. lia. }
  split; auto. cbv zeta. split; [|split; auto]. rewrite R3, Q. replace (S0 * k * (1 + d3) + e - S0) with (S0 * (k * (1 + d3) - 1) + e) by ring.
  eapply Rle_trans; [apply Rabs_triang|]. rewrite Rabs_mult, (Rabs_pos_eq S0) by auto. apply Rplus_le_compat; auto. rewrite (Rmult_comm (2 * ulp1)). apply Rmult_le_compat_l; auto.
  rewrite ulp1_u. apply abs_bound in H3. apply Rabs_le. nra.
Qed.

(** A value of the data range lands in the target range up to a slack. *)
Lemma range_cell : forall lo hi a z s x : f64, is_finite lo = true -> is_finite hi = true -> is_finite a = true -> is_finite z = true -> is_finite x = true ->
  Rabs (real lo) <= bpow radix2 300 -> Rabs (real hi) <= bpow radix2 300 -> Rabs (real a) <= bpow radix2 300 -> Rabs (real z) <= bpow radix2 300 ->
  real lo <= real hi -> bpow radix2 (-300) <= real z - real a -> f_div (f_sub hi lo) (f_sub z a) = Ok s -> real a <= real x <= real z ->
  let v := f_add (f_mul x s) (f_sub lo (f_mul a s)) in
  is_finite v = true /\
  Rabs (real v - (real lo + (real x - real a) * ((real hi - real lo) / (real z - real a)))) <= range_slack (real lo) (real hi) (real a) (real z).
Proof.
  intros lo hi a z s x Fl Fh Fa Fz Fx Bl Bh Ba Bz LH LG E HX v. unfold v.
  destruct (scale_cell lo hi a z s Fl Fh Fa Fz Bl Bh Ba Bz LH LG E) as (Fs & CS & P0 & B0). set (S0 := (real hi - real lo) / (real z - real a)) in *.
  unfold range_slack. fold S0. set (T := Rmax (Rabs (real a)) (Rabs (real z))).
  assert (TA : Rabs (real a) <= T) by apply Rmax_l. assert (TZ : Rabs (real z) <= T) by apply Rmax_r.
  assert (TX : Rabs (real x) <= T) by (unfold T; apply abs_bound in TA; apply abs_bound in TZ; fold T; apply Rabs_le; lra).
  assert (T0 : 0 <= T) by (eapply Rle_trans; [apply Rabs_pos|exact TA]). assert (TB : T <= bpow radix2 300) by (unfold T; apply Rmax_lub; auto).
  pose proof u_pos as U0. pose proof eta_pos as E0. assert (U2 : u <= / 1024) by (change (/ 1024) with (bpow radix2 (-10)); apply bpow_le; lia).
  assert (E2 : eta <= / 1024) by (pose proof eta_small; nra).
  assert (SB : Rabs (real s) <= 9/8 * S0 + eta). { apply abs_bound in CS. rewrite ulp1_u in CS. apply Rabs_le. nra. }
  assert (SP : Rabs (real s) <= bpow radix2 603).
  { eapply Rle_trans; [exact SB|]. change 603%Z with (1 + 602)%Z. rewrite bpow_plus. change (bpow radix2 1) with 2. assert (1 <= bpow radix2 602) by (change 1 with (bpow radix2 0); apply bpow_le; lia). lra. }
  assert (PB : forall y, Rabs y <= T -> Rabs (y * real s) <= T * (9/8 * S0 + eta) /\ Rabs (y * real s) <= bpow radix2 903).
  { intros y Hy. rewrite Rabs_mult. split; [apply Rmult_le_compat; auto using Rabs_pos|]. change 903%Z with (300 + 603)%Z. rewrite bpow_plus. apply Rmult_le_compat; auto using Rabs_pos; lra. }
  destruct (PB _ TA) as [A1 A2]. destruct (PB _ TX) as [X1 X2].
  assert (BB : forall q, 0 <= q -> q <= bpow radix2 906 -> q <= bpow radix2 1000) by (intros q _ H; eapply Rle_trans; [exact H|apply bpow_le; lia]).
  assert (B3 : bpow radix2 300 <= bpow radix2 903) by (apply bpow_le; lia).
  assert (B6 : bpow radix2 906 = 8 * bpow radix2 903) by (change 906%Z with (3 + 903)%Z; rewrite bpow_plus; reflexivity).
  assert (B9 : 1 <= bpow radix2 903) by (change 1 with (bpow radix2 0); apply bpow_le; lia).
  pose proof (Rabs_pos (real a * real s)) as Q1. pose proof (Rabs_pos (real x * real s)) as Q2. pose proof (Rabs_pos (real lo)) as Q3.
  destruct (affine_sub_cell a s lo Fa Fs Fl) as [Fb Cb]; [apply BB; lra|].
  set (b := f_sub lo (f_mul a s)) in *.
  assert (KB : Rabs (real b) <= 9/8 * (Rabs (real lo) + Rabs (real a * real s)) + tiny).
  { apply abs_bound in Cb. pose proof (Rle_abs (real lo)). pose proof (Rle_abs (- real lo)) as N1. rewrite Rabs_Ropp in N1. pose proof (Rle_abs (real a * real s)). pose proof (Rle_abs (- (real a * real s))) as N2. rewrite Rabs_Ropp in N2.
    rewrite ulp1_u in Cb. apply Rabs_le. nra. }
  assert (TI : tiny <= 1) by (rewrite tiny_eta; lra).
  destruct (affine_cell x s b Fx Fs Fb) as [Fv Cv]; [apply BB; [pose proof (Rabs_pos (real b)); lra|lra]|].
  split; auto. set (w := f_add (f_mul x s) b) in *.
  replace (real w - (real lo + (real x - real a) * S0)) with ((real w - (real x * real s + real b)) + (real b - (real lo - real a * real s)) + (real x - real a) * (real s - S0)) by ring.
  eapply Rle_trans; [apply Rabs_triang|]. eapply Rle_trans; [apply Rplus_le_compat_r, Rabs_triang|].
  assert (C3 : Rabs ((real x - real a) * (real s - S0)) <= (real z - real a) * (2 * ulp1 * S0 + eta)).
  { rewrite Rabs_mult. apply Rmult_le_compat; auto using Rabs_pos. rewrite Rabs_pos_eq; lra. }
  assert (ZA : (real z - real a) * S0 = real hi - real lo) by (unfold S0; field; pose proof (bpow_gt_0 radix2 (-300)); lra).
  assert (ZT : real z - real a <= 2 * T) by (apply abs_bound in TA; apply abs_bound in TZ; lra).
  assert (C4 : (real z - real a) * (2 * ulp1 * S0 + eta) <= 2 * ulp1 * (Rabs (real lo) + Rabs (real hi)) + 2 * T * eta).
  { replace ((real z - real a) * (2 * ulp1 * S0 + eta)) with (2 * ulp1 * ((real z - real a) * S0) + (real z - real a) * eta) by ring. rewrite ZA.
    apply Rplus_le_compat; [|apply Rmult_le_compat_r; lra]. apply Rmult_le_compat_l; [rewrite ulp1_u; lra|]. pose proof (Rle_abs (real hi)). pose proof (Rle_abs (- real lo)) as N1. rewrite Rabs_Ropp in N1. lra. }
  set (X := T * S0). assert (X0 : 0 <= X) by (unfold X; apply Rmult_le_pos; auto).
  assert (TE : T * (9/8 * S0 + eta) = 9/8 * X + T * eta) by (unfold X; field). rewrite TE in A1, X1.
  rewrite ulp1_u in *. rewrite tiny_eta in *. set (Tn := T * eta) in *. assert (N0 : 0 <= Tn) by (unfold Tn; apply Rmult_le_pos; lra).
  pose proof (Rabs_pos (real hi)) as Q4.
  assert (V1 : Rabs (real w - (real x * real s + real b)) <= 2 * (2 * u) * (9/8 * X + Tn + (9/8 * (Rabs (real lo) + (9/8 * X + Tn)) + 2 * eta)) + 2 * eta).
  { eapply Rle_trans; [exact Cv|]. apply Rplus_le_compat_r, Rmult_le_compat_l; [lra|]. lra. }
  assert (V2 : Rabs (real b - (real lo - real a * real s)) <= 2 * (2 * u) * (9/8 * X + Tn + Rabs (real lo)) + 2 * eta).
  { eapply Rle_trans; [exact Cb|]. apply Rplus_le_compat_r, Rmult_le_compat_l; lra. }
  assert (V3 : u * Tn <= / 1024 * Tn) by (apply Rmult_le_compat_r; auto). assert (V4 : u * eta <= / 1024 * eta) by (apply Rmult_le_compat_r; lra).
  assert (V5 : 0 <= u * X) by (apply Rmult_le_pos; lra). assert (V6 : 0 <= u * Rabs (real lo)) by (apply Rmult_le_pos; lra). assert (V7 : 0 <= u * Rabs (real hi)) by (apply Rmult_le_pos; lra).
  replace (2 * T * eta) with (2 * Tn) in C4 by (unfold Tn; ring).
  replace (10 * (2 * u) * (Rabs (real lo) + Rabs (real hi) + X) + (4 + 3 * T) * (2 * eta)) with (20 * (u * Rabs (real lo)) + 20 * (u * Rabs (real hi)) + 20 * (u * X) + 8 * eta + 6 * Tn) by (unfold Tn; ring).
  nra.
Qed.

(** Products of doubles that do not underflow. *)
Lemma mul_zero : forall x y : f64, is_finite x = true -> is_finite y = true -> real x * real y = 0 -> is_finite (f_mul x y) = true /\ real (f_mul x y) = 0.
Proof.
  intros x y Fx Fy H. apply fin_of_b2x. rewrite f_mul_x, (b2x_fin x Fx), (b2x_fin y Fy). cbn [xround x_mul]. fold (real x) (real y). rewrite H.
  rewrite fround_fits; unfold rnd; rewrite round_0; auto with typeclass_instances. rewrite Rabs_R0. apply bpow_gt_0.
Qed.
Lemma mul_rel : forall x y : f64, is_finite x = true -> is_finite y = true -> sized_prod (real x * real y) ->
  is_finite (f_mul x y) = true /\ Rabs (real (f_mul x y) - real x * real y) <= ulp1 * Rabs (real x * real y).
Proof.
  intros x y Fx Fy [H|[H1 H2]].
  - destruct (mul_zero x y Fx Fy H) as [F R]. split; auto. rewrite R, H, Rminus_0_r, Rabs_R0. lra.
  - destruct (mul_fits x y Fx Fy) as (F & d & e & Hd & He & R); [eapply Rle_trans; [exact H2|apply bpow_le; lia]|]. split; auto. rewrite R. set (p := real x * real y) in *.
    replace (p * (1 + d) + e - p) with (p * d + e) by ring. eapply Rle_trans; [apply Rabs_triang|]. rewrite Rabs_mult, ulp1_u.
    assert (E : eta <= u * Rabs p). { apply Rle_trans with (u * bpow radix2 (-400)); [unfold u, eta; rewrite <- bpow_plus; apply bpow_le; lia|]. apply Rmult_le_compat_l; [left; apply u_pos|auto]. }
    pose proof (Rabs_pos p). assert (Rabs p * Rabs d <= Rabs p * u) by (apply Rmult_le_compat_l; auto). lra.
Qed.

Definition rel (e : R) (w a : R) : Prop := Rabs (w - a) <= e * Rabs a.
Lemma rel_sq : forall e w a, 0 <= e <= / 2 -> rel e w a -> (1 - e) * (1 - e) * (a * a) <= w * w <= (1 + e) * (1 + e) * (a * a).
Proof.
  intros e w a He H. unfold rel in H. apply abs_bound in H. unfold Rabs in H. destruct (Rcase_abs a) as [N|P].
  - assert (A : (1 - e) * (- a) <= - w <= (1 + e) * (- a)) by lra. assert (0 <= (1 - e) * (- a)) by nra. replace (w * w) with ((- w) * (- w)) by ring. replace (a * a) with ((- a) * (- a)) by ring. set (b := - a) in *. set (v := - w) in *. nra.
  - assert (A : (1 - e) * a <= w <= (1 + e) * a) by lra. assert (0 <= (1 - e) * a) by nra. nra.
Qed.
Lemma rel_dot : forall e w a, 0 <= e <= / 2 -> Forall2 (rel e) w a -> (1 - e) * (1 - e) * Rdot a a <= Rdot w w <= (1 + e) * (1 + e) * Rdot a a.
Proof.
  intros e w a He H. induction H as [|x y w a R F IH]; cbn [Rdot]; [lra|]. pose proof (rel_sq e x y He R). lra.
Qed.
Lemma Rdot_self_pos : forall a, 0 <= Rdot a a.
Proof. induction a as [|x a IH]; cbn [Rdot]; [lra|]. nra. Qed.
Lemma rel_l2 : forall e w a, 0 <= e <= / 2 -> Forall2 (rel e) w a -> (1 - e) * Rl2 a <= Rl2 w <= (1 + e) * Rl2 a.
Proof.
  intros e w a He H. apply rel_dot in H; auto. unfold Rl2. pose proof (Rdot_self_pos a) as P.
  rewrite <- (sqrt_square (1 - e)) at 1 by lra. rewrite <- (sqrt_square (1 + e)) by lra. rewrite <- !sqrt_mult; try nra. split; apply sqrt_le_1_alt; lra.
Qed.
Lemma rel_unit : forall e w a x y, 0 <= e <= / 8 -> Forall2 (rel e) w a -> rel e x y -> rel (3 * e) (x / Rl2 w) (y / Rl2 a).
Proof.
  intros e w a x y He H Hx. apply rel_l2 in H; [|lra]. assert (P : 0 <= Rl2 a) by apply sqrt_pos. unfold rel in *. destruct (Req_dec (Rl2 a) 0) as [Z|N].
  - rewrite Z in *. assert (Zw : Rl2 w = 0) by lra. rewrite Zw. unfold Rdiv. rewrite Rinv_0, !Rmult_0_r, Rminus_0_r, Rabs_R0. lra.
  - assert (PA : 0 < Rl2 a) by lra. assert (PW : 0 < Rl2 w) by nra. set (A := Rl2 a) in *. set (W := Rl2 w) in *.
    replace (x / W - y / A) with ((x - y) / W + y / A * ((A - W) / W)) by (field; lra).
    eapply Rle_trans; [apply Rabs_triang|]. rewrite (Rabs_mult (y / A)). unfold Rdiv at 1. rewrite (Rabs_mult (x - y)), (Rabs_pos_eq (/ W)) by (left; apply Rinv_0_lt_compat; auto).
    assert (I : / W <= / (1 - e) * / A) by (rewrite <- Rinv_mult; apply Rinv_le; nra).
    assert (J : Rabs ((A - W) / W) <= e * / (1 - e)).
    { unfold Rdiv. rewrite Rabs_mult, (Rabs_pos_eq (/ W)) by (left; apply Rinv_0_lt_compat; auto). assert (Rabs (A - W) <= e * A) by (apply Rabs_le; nra).
      apply Rle_trans with (e * A * (/ (1 - e) * / A)); [apply Rmult_le_compat; auto using Rabs_pos; left; apply Rinv_0_lt_compat; auto|]. right. field. lra. }
    assert (K : Rabs (x - y) * / W <= e * / (1 - e) * Rabs (y / A)).
    { unfold Rdiv. rewrite Rabs_mult, (Rabs_pos_eq (/ A)) by (left; apply Rinv_0_lt_compat; auto).
      apply Rle_trans with (e * Rabs y * (/ (1 - e) * / A)); [apply Rmult_le_compat; auto using Rabs_pos; left; apply Rinv_0_lt_compat; auto|]. right. field. lra. }
    assert (Q : / (1 - e) <= 3 / 2). { rewrite <- (Rinv_inv (3 / 2)). apply Rinv_le; lra. }
    pose proof (Rabs_pos (y / A)) as PY. assert (Q0 : 0 < / (1 - e)) by (apply Rinv_0_lt_compat; lra).
    assert (Rabs (y / A) * Rabs ((A - W) / W) <= Rabs (y / A) * (e * / (1 - e))) by (apply Rmult_le_compat_l; auto).
    assert (e * / (1 - e) <= 3 / 2 * e) by (rewrite Rmult_comm; apply Rmult_le_compat_r; lra).
    assert (e * / (1 - e) * Rabs (y / A) <= 3 / 2 * e * Rabs (y / A)) by (apply Rmult_le_compat_r; auto). lra.
Qed.

(** A row of such products has a norm well inside the range of doubles. *)
Lemma prods_scaled : forall w a, (Z.of_nat (length a) <= 2 ^ 46)%Z -> Forall2 (rel ulp1) w a -> Forall sized_prod a -> well_scaled w.
Proof.
  intros w a LN H S. assert (U : 0 <= ulp1 <= / 8) by (split; [left; apply bpow_gt_0|change (/ 8) with (bpow radix2 (-3)); apply bpow_le; lia]).
  pose proof (rel_dot ulp1 w a ltac:(lra) H) as [D1 D2]. pose proof (Rdot_self_pos a) as P. unfold well_scaled.
  assert (UP : Rdot a a <= INR (length a) * bpow radix2 800).
  { clear - S. induction S as [|x a [Hx|Hx] S IH]; [cbn [Rdot length INR]; lra|..]; cbn [Rdot]; change (length (x :: a)) with (Datatypes.S (length a)); rewrite S_INR.
    - subst x. pose proof (bpow_gt_0 radix2 800). lra.
    - replace (x * x) with (Rabs x * Rabs x) by (unfold Rabs; destruct (Rcase_abs x); ring). assert (Rabs x * Rabs x <= bpow radix2 800); [|lra].
      change 800%Z with (400 + 400)%Z. rewrite bpow_plus. apply Rmult_le_compat; auto using Rabs_pos; apply Hx. }
  assert (LO : Rdot a a = 0 \/ bpow radix2 (-800) <= Rdot a a).
  { clear - S. induction S as [|x a Hx S IH]; [left; reflexivity|]. cbn [Rdot]. pose proof (Rdot_self_pos a). destruct Hx as [->|[Hx _]].
    - destruct IH as [->|IH]; [left; ring|right; lra].
    - right. replace (x * x) with (Rabs x * Rabs x) by (unfold Rabs; destruct (Rcase_abs x); ring). assert (bpow radix2 (-800) <= Rabs x * Rabs x); [|lra].
      change (-800)%Z with (-400 + -400)%Z. rewrite bpow_plus. pose proof (bpow_gt_0 radix2 (-400)). apply Rmult_le_compat; lra. }
  destruct LO as [Z|LO]; [left; rewrite Z in *; lra|]. right. assert (LI : INR (length a) <= bpow radix2 46) by (apply INR_le_bpow; [lia|auto]).
  split.
  - apply Rle_trans with (/ 4 * bpow radix2 (-800)); [change (/ 4) with (bpow radix2 (-2)); rewrite <- bpow_plus; apply bpow_le; lia|]. pose proof (bpow_gt_0 radix2 (-800)). nra.
  - apply Rle_trans with (4 * (bpow radix2 46 * bpow radix2 800)).
    + assert (INR (length a) * bpow radix2 800 <= bpow radix2 46 * bpow radix2 800) by (apply Rmult_le_compat_r; [left; apply bpow_gt_0|auto]). nra.
    + change 4 with (bpow radix2 2). rewrite <- !bpow_plus. apply bpow_le. lia.
Qed.
