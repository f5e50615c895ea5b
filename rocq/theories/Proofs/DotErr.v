(** Rounding errors of sums and dot products of signed doubles. *)
From Coq Require Import Reals Lra Lia ZArith Bool List.
From Flocq Require Import Core BinarySingleNaN Relative Plus_error.
From Verif Require Import Model.Py Model.Arith Model.F64 Model.XR Proofs.Lib Proofs.Laws Proofs.Round Proofs.Unit Proofs.Arrays2 Proofs.SumErr.
From Verif Require Import Spec.Matrix Spec.Reals Spec.Rounding.
Import ListNotations.
Local Open Scope R_scope.

Lemma tiny_eta : tiny = 2 * eta.
Proof. unfold tiny, eta. change 2 with (bpow radix2 1). rewrite <- bpow_plus. reflexivity. Qed.
Lemma eta_small : eta <= u * u.
Proof. unfold eta, u. rewrite <- bpow_plus. apply bpow_le. lia. Qed.

Lemma fround_fits : forall r, Rabs (rnd r) < maxb -> fround r = XFin (rnd r).
Proof. intros r H. unfold fround. rewrite Rlt_bool_true; auto. Qed.
Lemma fin_of_b2x : forall (x : f64) r, b2x x = XFin r -> is_finite x = true /\ B2R x = r.
Proof. intros [|[]| |] r H; try discriminate; split; auto; cbn in *; congruence. Qed.
Lemma big : bpow radix2 1020 < maxb. Proof. apply bpow_lt. lia. Qed.

Lemma add_fits : forall x y : f64, is_finite x = true -> is_finite y = true -> (Rabs (real x) + Rabs (real y)) * (1 + u) <= bpow radix2 1020 ->
  is_finite (f_add x y) = true /\ exists d, Rabs d <= u /\ real (f_add x y) = (real x + real y) * (1 + d).
Proof. unfold real.
  intros x y Fx Fy H. destruct (rnd_add_err x y) as (d & Hd & E). pose proof u_pos. pose proof u_le. pose proof big.
  assert (B : Rabs (rnd (B2R x + B2R y)) < maxb).
  { rewrite E, Rabs_mult. apply Rle_lt_trans with (bpow radix2 1020); auto. eapply Rle_trans; [|exact H].
    apply Rmult_le_compat; try apply Rabs_pos; [apply Rabs_triang|]. apply Rabs_le_inv in Hd. apply Rabs_le. lra. }
  pose proof (f_add_x x y) as X. rewrite (b2x_fin x Fx), (b2x_fin y Fy) in X. cbn [x_add xround] in X. rewrite (fround_fits _ B) in X.
  apply fin_of_b2x in X. destruct X as [F X]. split; auto. exists d. split; auto. rewrite X. exact E.
Qed.
Lemma mul_fits : forall x y : f64, is_finite x = true -> is_finite y = true -> Rabs (real x * real y) <= bpow radix2 1010 ->
  is_finite (f_mul x y) = true /\ exists d e, Rabs d <= u /\ Rabs e <= eta /\ real (f_mul x y) = real x * real y * (1 + d) + e.
Proof. unfold real.
  intros x y Fx Fy H. destruct (rnd_err (B2R x * B2R y)) as (d & e & Hd & He & E). pose proof u_pos. pose proof u_le. pose proof big. pose proof eta_small. pose proof eta_pos.
  assert (B : Rabs (rnd (B2R x * B2R y)) < maxb).
  { rewrite E. eapply Rle_lt_trans; [apply Rabs_triang|]. rewrite Rabs_mult.
    assert (G : Rabs (1 + d) <= 2) by (apply Rabs_le_inv in Hd; apply Rabs_le; lra).
    apply Rle_lt_trans with (bpow radix2 1010 * 2 + 1).
    - apply Rplus_le_compat; [|nra]. apply Rmult_le_compat; auto using Rabs_pos.
    - apply Rle_lt_trans with (bpow radix2 1011 + bpow radix2 1011); [|].
      + apply Rplus_le_compat; [change 2 with (bpow radix2 1); rewrite <- bpow_plus; apply bpow_le; lia|change 1 with (bpow radix2 0); apply bpow_le; lia].
      + replace (bpow radix2 1011 + bpow radix2 1011) with (bpow radix2 1 * bpow radix2 1011) by (change (bpow radix2 1) with 2; ring). rewrite <- bpow_plus. apply bpow_lt. lia. }
  pose proof (f_mul_x x y) as X. rewrite (b2x_fin x Fx), (b2x_fin y Fy) in X. cbn [x_mul xround] in X. rewrite (fround_fits _ B) in X.
  apply fin_of_b2x in X. destruct X as [F X]. split; auto. exists d, e. split; auto. split; auto. rewrite X. exact E.
Qed.

Definition Rasum (l : list R) : R := Rsum (map Rabs l).
Lemma Rasum_pos : forall l, 0 <= Rasum l.
Proof. intro l. apply Rsum_nonneg, Forall_map, Forall_forall. intros; apply Rabs_pos. Qed.

Lemma fold_signed : forall (l : list f64) (a : f64), Forall (fun x => is_finite x = true) l -> is_finite a = true ->
  (Rabs (real a) + Rasum (map real l)) * (1 + u) ^ length l <= bpow radix2 1020 ->
  is_finite (fold_left f_add l a) = true /\
  Rabs (real (fold_left f_add l a) - (real a + Rsum (map real l))) <= ((1 + u) ^ length l - 1) * (Rabs (real a) + Rasum (map real l)).
Proof.
  induction l as [|x l IH]; intros a Fl Fa H.
  - cbn. split; auto. rewrite Rplus_0_r, Rminus_eq_0, Rabs_R0. pose proof (Rabs_pos (real a)). unfold Rasum. cbn. lra.
  - inversion Fl as [|? ? Fx Fl']; subst. cbn [fold_left map length pow] in *. unfold Rasum in H. cbn [map Rsum] in H. fold (Rasum (map real l)) in H.
    pose proof u_pos as UP. pose proof (Rasum_pos (map real l)) as SP.
    assert (PW : 1 <= (1 + u) ^ length l) by (apply pow_R1_Rle; lra).
    set (A := Rabs (real a) + Rabs (real x)) in *. assert (A0 : 0 <= A) by (unfold A; pose proof (Rabs_pos (real a)); pose proof (Rabs_pos (real x)); lra).
    assert (H' : (A + Rasum (map real l)) * ((1 + u) * (1 + u) ^ length l) <= bpow radix2 1020) by (unfold A; rewrite Rplus_assoc; exact H).
    destruct (add_fits a x Fa Fx) as (F1 & d & Hd & E1).
    { fold A. eapply Rle_trans; [|exact H']. apply Rmult_le_compat; try nra. }
    assert (B1 : Rabs (real (f_add a x)) <= A * (1 + u)).
    { rewrite E1, Rabs_mult. apply Rmult_le_compat; try apply Rabs_pos; [apply Rabs_triang|]. apply Rabs_le_inv in Hd. pose proof u_le. apply Rabs_le. lra. }
    destruct (IH (f_add a x) Fl' F1) as [F2 E2].
    { eapply Rle_trans; [|exact H']. rewrite <- Rmult_assoc. apply Rmult_le_compat_r; nra. }
    split; auto. cbn [Rsum]. unfold Rasum. cbn [map Rsum]. fold (Rasum (map real l)).
    replace (real (fold_left f_add l (f_add a x)) - (real a + (real x + Rsum (map real l)))) with
      ((real (fold_left f_add l (f_add a x)) - (real (f_add a x) + Rsum (map real l))) + (real a + real x) * d) by (rewrite E1; ring).
    eapply Rle_trans; [apply Rabs_triang|].
    assert (B2 : Rabs ((real a + real x) * d) <= A * u) by (rewrite Rabs_mult; apply Rmult_le_compat; try apply Rabs_pos; [apply Rabs_triang|exact Hd]).
    replace (Rabs (real a) + (Rabs (real x) + Rasum (map real l))) with (A + Rasum (map real l)) by (unfold A; ring).
    set (p := (1 + u) ^ length l) in *. set (s := Rasum (map real l)) in *.
    apply Rle_trans with ((p - 1) * (A * (1 + u) + s) + A * u).
    + apply Rplus_le_compat; auto. eapply Rle_trans; [exact E2|]. apply Rmult_le_compat_l; lra.
    + assert (0 <= u * p * s) by (apply Rmult_le_pos; [apply Rmult_le_pos; lra|auto]). nra.
Qed.

Lemma pow_up : forall n, (Z.of_nat n <= 2 ^ 52)%Z -> 1 <= (1 + u) ^ n <= 1 + INR n * ulp1 /\ (1 + u) ^ n <= 2.
Proof.
  intros n H. pose proof u_pos. pose proof (INR_bound n H) as B. pose proof (pow_hi n ltac:(lra)) as P. pose proof (pos_INR n).
  assert (Q : / (1 - INR n * u) <= 1 + 2 * (INR n * u)).
  { apply Rmult_le_reg_l with (1 - INR n * u); [lra|]. rewrite Rinv_r by lra. assert (0 <= (INR n * u) * (1 - 2 * (INR n * u))) by (apply Rmult_le_pos; [apply Rmult_le_pos; lra|lra]). lra. }
  rewrite ulp1_u. split; [split|]; [apply pow_R1_Rle; lra|lra|lra].
Qed.

(** Dot products. *)
Definition prods (l : list (f64 * f64)) : list f64 := map (fun p => f_mul (fst p) (snd p)) l.
Definition exact_prods (l : list (f64 * f64)) : list R := map (fun p => real (fst p) * real (snd p)) l.

Lemma prods_err : forall l : list (f64 * f64), Forall (fun p => is_finite (fst p) = true /\ is_finite (snd p) = true) l -> Rasum (exact_prods l) <= bpow radix2 1010 ->
  Forall (fun x => is_finite x = true) (prods l) /\
  Rabs (Rsum (map real (prods l)) - Rsum (exact_prods l)) <= u * Rasum (exact_prods l) + INR (length l) * eta /\
  Rasum (map real (prods l)) <= (1 + u) * Rasum (exact_prods l) + INR (length l) * eta.
Proof.
  induction l as [|[x y] l IH]; intros F H.
  - cbn. split; [constructor|]. unfold Rasum; cbn. rewrite Rminus_0_r, Rabs_R0. pose proof eta_pos. lra.
  - inversion F as [|? ? [Fx Fy] F']; subst. cbn [fst snd] in *. unfold Rasum in H. cbn [exact_prods map Rsum fst snd] in H. fold (exact_prods l) in H. fold (Rasum (exact_prods l)) in H.
    pose proof (Rasum_pos (exact_prods l)) as SP. pose proof (Rabs_pos (real x * real y)) as XP.
    destruct IH as (F1 & E1 & E2); auto; [lra|]. destruct (mul_fits x y Fx Fy) as (Fm & d & e & Hd & He & Em); [lra|].
    split; [constructor; auto|]. cbn [prods exact_prods map Rsum fst snd length]. fold (prods l). fold (exact_prods l). rewrite S_INR. unfold Rasum. cbn [map Rsum].
    fold (Rasum (map real (prods l))). fold (Rasum (exact_prods l)). rewrite Em. set (q := real x * real y) in *.
    assert (Q1 : Rabs (q * d) <= Rabs q * u) by (rewrite Rabs_mult; apply Rmult_le_compat_l; auto).
    split.
    + replace (q * (1 + d) + e + Rsum (map real (prods l)) - (q + Rsum (exact_prods l))) with ((q * d + e) + (Rsum (map real (prods l)) - Rsum (exact_prods l))) by ring.
      eapply Rle_trans; [apply Rabs_triang|]. pose proof (Rabs_triang (q * d) e). lra.
    + pose proof (Rabs_triang (q + q * d) e). pose proof (Rabs_triang q (q * d)). replace (q * (1 + d) + e) with (q + q * d + e) by ring. lra.
Qed.

(** A dot product of [n] terms plus a list of further terms. *)
Lemma dots_err : forall (l : list (f64 * f64)) (b : list f64), Forall (fun p => is_finite (fst p) = true /\ is_finite (snd p) = true) l -> Forall (fun x => is_finite x = true) b ->
  (Z.of_nat (length l + length b) < 2 ^ 52)%Z ->
  Rasum (exact_prods l) + Rasum (map real b) <= bpow radix2 1010 ->
  is_finite (fold_left f_add (prods l ++ b) (f_ofZE 0 0)) = true /\
  Rabs (real (fold_left f_add (prods l ++ b) (f_ofZE 0 0)) - (Rsum (exact_prods l) + Rsum (map real b))) <=
    (INR (length l + length b) + 1) * ulp1 * (Rasum (exact_prods l) + Rasum (map real b)) + INR (length l) * tiny.
Proof.
  intros l b Fl Fb HN H. pose proof (Rasum_pos (exact_prods l)) as P1. pose proof (Rasum_pos (map real b)) as P2.
  destruct (prods_err l Fl ltac:(lra)) as (Fp & Ep & Sp). pose proof u_pos as UP. pose proof u_le as UL. pose proof eta_pos as EP. pose proof (pos_INR (length l)) as LP.
  assert (AS : forall x y, Rasum (x ++ y) = Rasum x + Rasum y) by (intros x y; unfold Rasum; rewrite map_app; induction (map Rabs x); cbn; [ring|rewrite IHl0; ring]).
  assert (SS : forall x y, Rsum (x ++ y) = Rsum x + Rsum y) by (intros x y; induction x; cbn; [ring|rewrite IHx; ring]).
  set (N := (length l + length b)%nat) in *.
  assert (LN : length (prods l ++ b) = N) by (unfold prods; rewrite app_length, map_length; auto).
  destruct (pow_up N ltac:(lia)) as [[PW1 _] PW2]. destruct (pow_up (S N) ltac:(lia)) as [[_ PW3] _]. cbn [pow] in PW3. rewrite S_INR in PW3.
  set (p := (1 + u) ^ N) in *. set (D := Rasum (exact_prods l)) in *. set (Bs := Rasum (map real b)) in *.
  assert (NE : INR (length l) * eta <= u).
  { apply eta_u, INR_bpow. lia. }
  assert (Z0 : real (f_ofZE 0 0) = 0) by reflexivity.
  assert (BB : forall k, 0 <= k <= bpow radix2 1010 -> ((1 + u) * k + 1) * 2 <= bpow radix2 1020).
  { intros k [K0 K1]. apply Rle_trans with ((2 * bpow radix2 1010 + bpow radix2 0) * 2); [apply Rmult_le_compat_r; [lra|]; change (bpow radix2 0) with 1; nra|].
    apply Rle_trans with ((bpow radix2 1011 + bpow radix2 1011) * 2).
    - apply Rmult_le_compat_r; [lra|]. apply Rplus_le_compat; [change 2 with (bpow radix2 1); rewrite <- bpow_plus; apply bpow_le; lia|apply bpow_le; lia].
    - replace ((bpow radix2 1011 + bpow radix2 1011) * 2) with (bpow radix2 2 * bpow radix2 1011) by (change (bpow radix2 2) with 4; ring). rewrite <- bpow_plus. apply bpow_le. lia. }
  destruct (fold_signed (prods l ++ b) (f_ofZE 0 0)) as [F E].
  - apply Forall_app; auto.
  - reflexivity.
  - rewrite Z0, Rabs_R0, Rplus_0_l, map_app, AS, LN. fold p Bs. eapply Rle_trans; [|apply (BB (D + Bs)); lra]. apply Rmult_le_compat; try lra.
    + apply Rplus_le_le_0_compat; [apply Rasum_pos|auto].
    + assert (0 <= u * Bs) by (apply Rmult_le_pos; lra). apply Rle_trans with (((1 + u) * D + INR (length l) * eta) + Bs); [apply Rplus_le_compat; [exact Sp|apply Rle_refl]|lra].
  - split; auto. rewrite Z0, Rabs_R0, !Rplus_0_l, map_app, AS, SS, LN in E. fold p Bs in E.
    replace (real (fold_left f_add (prods l ++ b) (f_ofZE 0 0)) - (Rsum (exact_prods l) + Rsum (map real b))) with
      ((real (fold_left f_add (prods l ++ b) (f_ofZE 0 0)) - (Rsum (map real (prods l)) + Rsum (map real b))) + (Rsum (map real (prods l)) - Rsum (exact_prods l))) by ring.
    eapply Rle_trans; [apply Rabs_triang|]. rewrite tiny_eta.
    match type of E with ?a <= _ => assert (E0 : a <= (p - 1) * (Rasum (map real (prods l)) + Bs)) by exact E end.
    assert (E' : (p - 1) * (Rasum (map real (prods l)) + Bs) <= (p - 1) * ((1 + u) * D + INR (length l) * eta + Bs)) by (apply Rmult_le_compat_l; [lra|]; apply Rplus_le_compat_r; exact Sp).
    set (n := INR (length l) * eta) in *. assert (0 <= n) by (unfold n; apply Rmult_le_pos; lra).
    replace (INR (length l) * (2 * eta)) with (2 * n) by (unfold n; ring).
    assert (G : (p - 1) * ((1 + u) * D + n + Bs) + (u * D + n) <= ((1 + u) * p - 1) * (D + Bs) + 2 * n).
    { assert (0 <= u * p * Bs) by (apply Rmult_le_pos; [apply Rmult_le_pos; lra|auto]). nra. }
    assert (G2 : ((1 + u) * p - 1) * (D + Bs) <= (INR N + 1) * ulp1 * (D + Bs)) by (apply Rmult_le_compat_r; lra).
    eapply Rle_trans; [apply Rplus_le_compat; [exact E0|exact Ep]|]. eapply Rle_trans; [apply Rplus_le_compat_r; exact E'|]. lra.
Qed.

Lemma dotp_prods : forall m (x y : list (F64 m)), dotp x y = fold_left f_add (prods (combine x y)) (f_ofZE 0 0).
Proof.
  intros m x y. unfold dotp. change (zero : F64 m) with (f_ofZE 0 0). generalize (f_ofZE 0 0). change (num (F64 m)) with f64 in *.
  induction (combine x y) as [|p l IH]; intro a; [reflexivity|]. cbn [prods map fold_left]. apply IH.
Qed.
Lemma exact_dot : forall x y : list f64, Rsum (exact_prods (combine x y)) = Rdot (reals x) (reals y).
Proof. induction x as [|a x IH]; intros [|b y]; cbn; auto. unfold exact_prods in IH. rewrite IH. reflexivity. Qed.
Lemma exact_absdot : forall x y : list f64, Rasum (exact_prods (combine x y)) = Rabsdot (reals x) (reals y).
Proof. unfold Rabsdot, Rasum. induction x as [|a x IH]; intros [|b y]; cbn; auto. unfold exact_prods in IH. rewrite IH, Rabs_mult. reflexivity. Qed.
Lemma fin_pairs : forall x y : list f64, all_finite x -> all_finite y -> Forall (fun p => is_finite (fst p) = true /\ is_finite (snd p) = true) (combine x y).
Proof. intros x y Fx. revert y. induction Fx as [|a x Fa Fx IH]; intros [|b y] Fy; cbn; auto. inversion Fy; subst. constructor; auto. Qed.

Lemma dot_error : forall m (x y : list f64), all_finite x -> all_finite y -> (Z.of_nat (length x) < 2 ^ 52)%Z ->
  Rabsdot (reals x) (reals y) <= bpow radix2 1010 ->
  is_finite (@dotp (F64 m) x y) = true /\
  Rabs (real (@dotp (F64 m) x y) - Rdot (reals x) (reals y)) <= (INR (length x) + 1) * ulp1 * Rabsdot (reals x) (reals y) + INR (length x) * tiny.
Proof.
  intros m x y Fx Fy L H. rewrite (dotp_prods m), <- exact_absdot, <- exact_dot. rewrite <- exact_absdot in H.
  assert (LC : (length (combine x y) <= length x)%nat) by (rewrite combine_length; lia).
  destruct (dots_err (combine x y) []) as [F E].
  - apply fin_pairs; auto.
  - constructor.
  - cbn [length]. lia.
  - unfold Rasum at 2. cbn [map Rsum]. rewrite Rplus_0_r. exact H.
  - rewrite app_nil_r in *. split; auto. unfold Rasum at 2 in E. cbn [length map Rsum] in E. rewrite !Rplus_0_r, Nat.add_0_r in E. eapply Rle_trans; [exact E|].
    apply le_INR in LC. pose proof (Rasum_pos (exact_prods (combine x y))).
    assert (0 < ulp1) by apply bpow_gt_0. assert (0 < tiny) by apply bpow_gt_0.
    apply Rplus_le_compat; [|apply Rmult_le_compat_r; lra]. apply Rmult_le_compat_r; auto. apply Rmult_le_compat_r; lra.
Qed.
Lemma affine_error : forall m (x y : list f64) (b : f64), all_finite x -> all_finite y -> is_finite b = true -> (Z.of_nat (length x) + 1 < 2 ^ 52)%Z ->
  Rabsdot (reals x) (reals y) + Rabs (real b) <= bpow radix2 1010 ->
  is_finite (@add (F64 m) (@dotp (F64 m) x y) b) = true /\
  Rabs (real (@add (F64 m) (@dotp (F64 m) x y) b) - (Rdot (reals x) (reals y) + real b)) <= (INR (length x) + 2) * ulp1 * (Rabsdot (reals x) (reals y) + Rabs (real b)) + INR (length x) * tiny.
Proof.
  intros m x y b Fx Fy Fb L H. rewrite (dotp_prods m), <- exact_absdot, <- exact_dot. rewrite <- exact_absdot in H.
  assert (LC : (length (combine x y) <= length x)%nat) by (rewrite combine_length; lia).
  destruct (dots_err (combine x y) [b]) as [F E].
  - apply fin_pairs; auto.
  - repeat constructor; auto.
  - cbn [length]. lia.
  - unfold Rasum at 2. cbn [map Rsum]. rewrite Rplus_0_r. exact H.
  - rewrite fold_left_app in F, E. cbn [fold_left] in F, E. split; [exact F|]. cbn [length map Rsum] in E. unfold Rasum at 2 in E. cbn [map Rsum] in E. rewrite !Rplus_0_r in E. eapply Rle_trans; [exact E|].
    apply le_INR in LC. rewrite plus_INR. change (INR 1) with 1. pose proof (Rasum_pos (exact_prods (combine x y))). pose proof (Rabs_pos (real b)).
    assert (0 < ulp1) by apply bpow_gt_0. assert (0 < tiny) by apply bpow_gt_0.
    apply Rplus_le_compat; [|apply Rmult_le_compat_r; lra]. apply Rmult_le_compat_r; [lra|]. apply Rmult_le_compat_r; lra.
Qed.
