(** Rounding errors of sums and quotients of non-negative doubles. *)
From Coq Require Import Reals Lra Lia ZArith Bool List.
From Flocq Require Import Core BinarySingleNaN Relative Plus_error.
From Verif Require Import Model.Py Model.Arith Model.F64 Model.XR Proofs.Lib Proofs.Laws Proofs.Round Proofs.Unit Proofs.Arrays2.
From Verif Require Import Spec.Reals Spec.Rounding.
Import ListNotations.
Local Open Scope R_scope.

Definition u : R := bpow radix2 (-53).
Definition eta : R := bpow radix2 (-1075).
Lemma u_pos : 0 < u. Proof. apply bpow_gt_0. Qed.
Lemma ulp1_u : ulp1 = 2 * u.
Proof. unfold ulp1, u. change 2 with (bpow radix2 1). rewrite <- bpow_plus. reflexivity. Qed.
Lemma u_le : u <= / 4.
Proof. unfold u. change (/4) with (bpow radix2 (-2)). apply bpow_le. lia. Qed.
Lemma eta_pos : 0 < eta. Proof. apply bpow_gt_0. Qed.
Lemma u_ro53 : u_ro radix2 53 = u.
Proof. unfold u_ro, u. change (/2) with (bpow radix2 (-1)). rewrite <- bpow_plus. reflexivity. Qed.
Lemma fexp_FLT : forall e, fexp64 e = FLT_exp (-1074) 53 e.
Proof. reflexivity. Qed.

Lemma rnd_add_err : forall x y : f64, exists d, Rabs d <= u /\ rnd (B2R x + B2R y) = (B2R x + B2R y) * (1 + d).
Proof.
  intros x y. destruct (FLT_plus_error_N_ex radix2 (-1074) 53 (fun t => negb (Z.even t)) (B2R x) (B2R y)) as (d & Hd & E).
  - exact (generic_format_B2R 53 1024 x).
  - exact (generic_format_B2R 53 1024 y).
  - exists d. split; [|exact E]. rewrite u_ro53 in Hd. eapply Rle_trans; [exact Hd|]. pose proof u_pos.
    apply Rmult_le_reg_r with (1 + u); [lra|]. unfold Rdiv. rewrite Rmult_assoc, Rinv_l by lra. nra.
Qed.
Lemma rnd_err : forall r, exists d e, Rabs d <= u /\ Rabs e <= eta /\ rnd r = r * (1 + d) + e.
Proof.
  intro r. destruct (error_N_FLT radix2 (-1074) 53 ltac:(lia) (fun t => negb (Z.even t)) r) as (d & e & Hd & He & _ & E).
  exists d, e. split; [|split; [|exact E]].
  - unfold u. replace (bpow radix2 (-53)) with (/ 2 * bpow radix2 (-53 + 1)); [exact Hd|]. change (/2) with (bpow radix2 (-1)). rewrite <- bpow_plus. reflexivity.
  - unfold eta. replace (bpow radix2 (-1075)) with (/ 2 * bpow radix2 (-1074)); [exact He|]. change (/2) with (bpow radix2 (-1)). rewrite <- bpow_plus. reflexivity.
Qed.

(** Values of finite results. *)
Lemma fround_fin : forall r v, XFin v = fround r -> v = rnd r.
Proof. intros r v H. unfold fround in H. destruct (Rlt_bool _ _); [congruence|]. destruct (Rlt_bool _ _); discriminate. Qed.
Lemma add_fin : forall x y : f64, is_finite x = true -> is_finite y = true -> is_finite (f_add x y) = true ->
  B2R (f_add x y) = rnd (B2R x + B2R y).
Proof.
  intros x y Fx Fy F. pose proof (f_add_x x y) as E. rewrite !b2x_fin in E by auto. apply fround_fin; auto.
Qed.
Lemma add_fin_inv : forall x y : f64, is_finite (f_add x y) = true -> is_finite x = true /\ is_finite y = true.
Proof. intros [|[]| |] [|[]| |]; cbn; intro H; try discriminate; auto. Qed.
Lemma fold_fin_inv : forall l (a : f64), is_finite (fold_left f_add l a) = true ->
  is_finite a = true /\ Forall (fun x => is_finite x = true) l.
Proof.
  induction l as [|x l IH]; intros a H; [auto|]. cbn in H. apply IH in H. destruct H as [H1 H2]. apply add_fin_inv in H1. destruct H1. auto.
Qed.
Lemma div_fin : forall x y q : f64, is_finite x = true -> is_finite y = true -> f_div x y = Ok q -> is_finite q = true ->
  B2R y <> 0 /\ B2R q = rnd (B2R x / B2R y).
Proof.
  intros x y q Fx Fy D Fq. pose proof (f_div_x x y) as E. rewrite D, !(b2x_fin _ Fx), !(b2x_fin _ Fy) in E. cbn [rmap x_div] in E.
  destruct (Reqb (B2R y) 0) eqn:Z; [discriminate|]. apply Reqb_neq in Z. split; auto.
  cbn [rmap] in E. injection E as E. rewrite (b2x_fin q Fq) in E. apply fround_fin; auto.
Qed.

Lemma Rsum_nonneg : forall l, Forall (fun x => 0 <= x) l -> 0 <= Rsum l.
Proof. intros l H. induction H; cbn; lra. Qed.
Lemma pow_lo : forall n, 1 - INR n * u <= (1 - u) ^ n.
Proof.
  induction n as [|n IH]; [cbn; lra|]. rewrite S_INR. cbn [pow]. pose proof u_pos. pose proof u_le. pose proof (pos_INR n).
  assert ((1 - u) * (1 - INR n * u) <= (1 - u) * (1 - u) ^ n) by (apply Rmult_le_compat_l; lra). nra.
Qed.
Lemma pow_hi : forall n, INR n * u < 1 -> (1 + u) ^ n <= / (1 - INR n * u).
Proof.
  intros n H. apply Rmult_le_reg_r with (1 - INR n * u); [lra|]. rewrite Rinv_l by lra.
  pose proof u_pos. pose proof u_le. pose proof (pow_lo n). assert (0 < (1 + u) ^ n) by (apply pow_lt; lra).
  apply Rle_trans with ((1 + u) ^ n * (1 - u) ^ n); [apply Rmult_le_compat_l; lra|].
  rewrite <- Rpow_mult_distr. apply Rle_trans with (1 ^ n); [apply pow_incr; nra|rewrite pow1; lra].
Qed.

(** The accumulated relative error of a sum of non-negative doubles. *)
Lemma fold_err : forall l (a : f64), is_finite (fold_left f_add l a) = true -> 0 <= B2R a ->
  Forall (fun x : f64 => 0 <= B2R x) l ->
  (B2R a + Rsum (map B2R l)) * (1 - u) ^ length l <= B2R (fold_left f_add l a) <= (B2R a + Rsum (map B2R l)) * (1 + u) ^ length l.
Proof.
  induction l as [|x l IH]; intros a F Ha Hl; [cbn; lra|]. cbn [fold_left map Rsum length] in *.
  pose proof (fold_fin_inv _ _ F) as [F1 F2]. pose proof (add_fin_inv _ _ F1) as [Fa Fx]. inversion Hl as [|? ? Hx Hl']; subst.
  destruct (rnd_add_err a x) as (d & Hd & E). rewrite <- add_fin in E by auto. apply Rabs_le_inv in Hd. pose proof u_pos. pose proof u_le.
  assert (G : (B2R a + B2R x) * (1 - u) <= B2R (f_add a x) <= (B2R a + B2R x) * (1 + u)) by (rewrite E; nra).
  assert (G0 : 0 <= B2R (f_add a x)) by nra.
  specialize (IH _ F G0 Hl'). assert (S0 : 0 <= Rsum (map B2R l)) by (apply Rsum_nonneg, Forall_map; auto).
  assert (0 <= (1 - u) ^ length l) by (apply pow_le; lra). assert (0 <= (1 + u) ^ length l) by (apply pow_le; lra). cbn [pow].
  split.
  - eapply Rle_trans; [|apply IH]. rewrite <- Rmult_assoc. apply Rmult_le_compat_r; [auto|]. nra.
  - eapply Rle_trans; [apply IH|]. rewrite <- Rmult_assoc. apply Rmult_le_compat_r; [auto|]. nra.
Qed.

(** Quotients by the sum. *)
Lemma Rsum_quot : forall (l q : list f64) (S : R), 0 < S -> Forall (fun x : f64 => 0 <= B2R x) l ->
  Forall2 (fun x y : f64 => B2R y = rnd (B2R x / S)) l q ->
  Rsum (map B2R l) / S * (1 - u) - INR (length l) * eta <= Rsum (map B2R q) <= Rsum (map B2R l) / S * (1 + u) + INR (length l) * eta.
Proof.
  intros l q S HS HL H. induction H as [|x y l q E H IH]; [cbn; lra|]. inversion HL as [|? ? Hx HL']; subst. specialize (IH HL').
  cbn [map Rsum length]. rewrite S_INR. destruct (rnd_err (B2R x / S)) as (d & e & Hd & He & R). rewrite E, R.
  apply Rabs_le_inv in Hd. apply Rabs_le_inv in He. assert (0 <= B2R x / S) by (apply Rmult_le_pos; [auto|apply Rlt_le, Rinv_0_lt_compat; auto]).
  replace ((B2R x + Rsum (map B2R l)) / S) with (B2R x / S + Rsum (map B2R l) / S) by (field; lra). nra.
Qed.

Lemma eta_u : forall n, INR n <= bpow radix2 52 -> INR n * eta <= u.
Proof.
  intros n H. pose proof eta_pos. apply Rle_trans with (bpow radix2 52 * eta); [apply Rmult_le_compat_r; lra|].
  unfold eta, u. rewrite <- bpow_plus. apply bpow_le. lia.
Qed.

Lemma INR_bound : forall n, (Z.of_nat n <= 2 ^ 52)%Z -> INR n * u <= / 2.
Proof.
  intros n H. rewrite INR_IZR_INZ. apply IZR_le in H. apply Rle_trans with (IZR (2 ^ 52) * u); [apply Rmult_le_compat_r; [apply Rlt_le, u_pos|auto]|].
  change (IZR (2 ^ 52)) with (bpow radix2 52). unfold u. rewrite <- bpow_plus. change (/2) with (bpow radix2 (-1)). apply bpow_le. lia.
Qed.
Lemma INR_bpow : forall n, (Z.of_nat n <= 2 ^ 52)%Z -> INR n <= bpow radix2 52.
Proof. intros n H. rewrite INR_IZR_INZ. change (bpow radix2 52) with (IZR (2 ^ 52)). apply IZR_le; auto. Qed.

(** Real-number core: [t] is the sum of [n] non-negative numbers, [s] the
    computed sum, [w] the sum of the computed quotients. *)
Lemma near_one : forall (n : nat) t s w, (Z.of_nat n <= 2 ^ 52)%Z -> 0 <= t -> 0 < s ->
  t * (1 - u) ^ n <= s <= t * (1 + u) ^ n ->
  t / s * (1 - u) - INR n * eta <= w <= t / s * (1 + u) + INR n * eta ->
  Rabs (w - 1) <= (INR n + 2) * ulp1.
Proof.
  intros n t s w Hn Ht Hs [S1 S2] [W1 W2]. rewrite ulp1_u. pose proof u_pos. pose proof u_le. pose proof (pos_INR n).
  pose proof (INR_bound n Hn) as B. pose proof (eta_u n (INR_bpow n Hn)) as BE. pose proof (pow_lo n) as P1. pose proof (pow_hi n ltac:(lra)) as P2.
  assert (Tp : 0 < t). { destruct (Req_dec t 0) as [->|]; [rewrite Rmult_0_l in S2; lra|lra]. }
  set (N := INR n * u) in *.
  assert (0 <= N) by (unfold N; nra).
  assert (Q1 : t / s <= / (1 - N)).
  { apply Rmult_le_reg_r with s; [auto|]. unfold Rdiv. rewrite Rmult_assoc, Rinv_l by lra. apply Rmult_le_reg_l with (1 - N); [lra|].
    rewrite <- (Rmult_assoc (1 - N) (/ (1 - N))), Rinv_r, Rmult_1_l by lra. nra. }
  assert (Q2 : 1 - N <= t / s).
  { apply Rmult_le_reg_r with s; [auto|]. unfold Rdiv. rewrite Rmult_assoc, Rinv_l by lra. rewrite Rmult_1_r.
    apply Rle_trans with ((1 - N) * (t * (1 + u) ^ n)); [apply Rmult_le_compat_l; lra|].
    apply Rle_trans with ((1 - N) * (t * / (1 - N))); [apply Rmult_le_compat_l; [lra|apply Rmult_le_compat_l; lra]|]. right. field. lra. }
  assert (Q3 : / (1 - N) * (1 + u) <= 1 + 2 * (N + u)).
  { apply Rmult_le_reg_l with (1 - N); [lra|]. rewrite <- Rmult_assoc, Rinv_r, Rmult_1_l by lra.
    assert (0 <= (1 - 2 * N) * (N + u)) by (apply Rmult_le_pos; lra). nra. }
  assert (Q4 : t / s * (1 + u) <= 1 + 2 * (N + u)) by (eapply Rle_trans; [apply Rmult_le_compat_r; [lra|exact Q1]|exact Q3]).
  assert (Q5 : (1 - N) * (1 - u) <= t / s * (1 - u)) by (apply Rmult_le_compat_r; lra).
  replace ((INR n + 2) * (2 * u)) with (2 * N + 4 * u) by (unfold N; ring).
  apply Rabs_le. split; nra.
Qed.

Lemma nonneg_real : forall x : f64, f_leb (f_ofZE 0 0) x = true -> is_finite x = true -> 0 <= B2R x.
Proof. intros x H F. rewrite f_leb_x, b2x_zero, b2x_fin in H by auto. apply Rleb_le. exact H. Qed.
Lemma unit_fin : forall x : f64, f_leb (f_ofZE 0 0) x = true -> f_leb x (f_ofZE 1 0) = true -> is_finite x = true.
Proof. intros [|[]| |] H H1; auto; rewrite f_leb_x in *; cbn in *; rewrite ?b2x_one in *; discriminate. Qed.

(** Dividing non-negative doubles by their computed sum. *)
Lemma normalised_sum_R : forall (es p : list f64), (Z.of_nat (length es) <= 2 ^ 52)%Z ->
  Forall (fun x => f_leb (f_ofZE 0 0) x = true) es -> is_finite (fold_left f_add es (f_ofZE 0 0)) = true ->
  Forall2 (fun e q => let s := B2R (fold_left f_add es (f_ofZE 0 0)) in s <> 0 /\ B2R q = rnd (B2R e / s) /\ is_finite q = true) es p ->
  es <> [] -> sums_to_one ((INR (length es) + 2) * ulp1) p.
Proof.
  intros es p Hn H0 F D NE. cbn zeta in D. set (s := fold_left f_add es (f_ofZE 0 0)) in *.
  pose proof (fold_fin_inv _ _ F) as [Fz Fes].
  assert (P : Forall (fun x : f64 => 0 <= B2R x) es).
  { rewrite Forall_forall in *. intros x Hx. apply nonneg_real; auto. }
  assert (Z0 : B2R (f_ofZE 0 0) = 0) by reflexivity.
  pose proof (fold_err es (f_ofZE 0 0) F ltac:(lra) P) as E. rewrite Z0, Rplus_0_l in E. fold s in E.
  assert (SN : 0 <= Rsum (map B2R es)) by (apply Rsum_nonneg, Forall_map; auto).
  assert (S0 : 0 <= B2R s). { pose proof u_pos. pose proof u_le. assert (0 <= (1 - u) ^ length es) by (apply pow_le; lra). nra. }
  assert (SP : 0 < B2R s). { clear - D NE S0. clearbody s. destruct D as [|e q ? ? [D _] _]; [elim NE; reflexivity|]. lra. }
  split.
  - clear - D. clearbody s. induction D as [|? ? ? ? (_ & _ & ?)]; constructor; auto.
  - apply near_one with (t := Rsum (map B2R es)) (s := B2R s); auto.
    apply Rsum_quot; auto. clear - D. clearbody s. induction D as [|? ? ? ? (_ & ? & _)]; constructor; auto.
Qed.
Lemma normalised_sum : forall (es p : list f64), (Z.of_nat (length es) <= 2 ^ 52)%Z ->
  Forall (fun x => f_leb (f_ofZE 0 0) x = true) es -> is_finite (fold_left f_add es (f_ofZE 0 0)) = true ->
  Forall2 (fun e q => f_div e (fold_left f_add es (f_ofZE 0 0)) = Ok q /\ is_finite q = true) es p ->
  es <> [] -> sums_to_one ((INR (length es) + 2) * ulp1) p.
Proof.
  intros es p Hn H0 F H NE. apply normalised_sum_R; auto. cbn zeta.
  pose proof (fold_fin_inv _ _ F) as [Fz Fes]. clear - H Fes F. revert H F. generalize (fold_left f_add es (f_ofZE 0 0)). intros s H F.
  induction H as [|e q es p [D Fq] H IH]; constructor; inversion Fes; subst; auto. destruct (div_fin e s q); auto.
Qed.

(** Two numbers p and 1 - p. *)
Lemma one_minus_sum : forall p : f64, f_leb (f_ofZE 0 0) p = true -> f_leb p (f_ofZE 1 0) = true ->
  is_finite (f_sub (f_ofZE 1 0) p) = true -> sums_to_one (ulp1 / 2) [f_sub (f_ofZE 1 0) p; p].
Proof.
  intros p H0 H1 F. pose proof (unit_fin p H0 H1) as Fp. pose proof (nonneg_real p H0 Fp) as P0.
  assert (P1 : B2R p <= 1). { rewrite f_leb_x, b2x_one, b2x_fin in H1 by auto. apply Rleb_le. exact H1. }
  assert (O : B2R (f_ofZE 1 0) = 1). { pose proof b2x_one as Z. assert (Fo : is_finite (f_ofZE 1 0) = true) by reflexivity. rewrite (b2x_fin _ Fo) in Z. injection Z. auto. }
  assert (E : B2R (f_sub (f_ofZE 1 0) p) = rnd (1 + - B2R p)).
  { pose proof (f_sub_x (f_ofZE 1 0) p) as E. rewrite b2x_one, !b2x_fin in E by auto. apply fround_fin. exact E. }
  destruct (rnd_add_err (f_ofZE 1 0) (Bopp p)) as (d & Hd & R). rewrite O, B2R_Bopp in R. rewrite <- E in R.
  split; [repeat constructor; auto|]. cbn [map Rsum]. unfold real. rewrite R, ulp1_u. apply Rabs_le_inv in Hd. pose proof u_pos. apply Rabs_le. nra.
Qed.

(** Means. *)
Lemma div_fin_inv : forall x y q : f64, f_div x y = Ok q -> is_finite q = true -> is_finite y = true -> is_finite x = true.
Proof. intros [|[]| |] [|[]| |]; cbn; intros q E F Fy; try discriminate; auto; injection E as <-; discriminate. Qed.

Lemma mean_row : forall (K : nat) (vss : list (list f64)) (q : list f64) e, (1 <= K)%nat -> (Z.of_nat K <= 2 ^ 52)%Z -> (Z.of_nat (length q) <= 2 ^ 52)%Z ->
  Forall (fun vs => length vs = K /\ Forall (fun x : f64 => 0 <= B2R x) vs) vss ->
  Forall2 (fun vs y => f_div (match vs with [] => f_ofZE 0 0 | v :: t => fold_left f_add t v end) (f_ofZE (Z.of_nat K) 0) = Ok y /\ is_finite y = true) vss q ->
  0 <= e <= 1 -> Rabs (Rsum (map (fun vs => Rsum (map B2R vs)) vss) - INR K) <= INR K * e ->
  sums_to_one (e + (2 * INR K + 1) * ulp1) q.
Proof.
  intros K vss q e HK BK Bq HV H He HS.
  assert (KR : B2R (f_ofZE (Z.of_nat K) 0) = INR K /\ is_finite (f_ofZE (Z.of_nat K) 0) = true).
  { assert (X : b2x (f_ofZE (Z.of_nat K) 0) = XFin (IZR (Z.of_nat K))) by (apply f_ofZ_x; lia). rewrite <- INR_IZR_INZ in X.
    assert (Fi : is_finite (f_ofZE (Z.of_nat K) 0) = true). { destruct (f_ofZE (Z.of_nat K) 0) as [|[]| |]; auto; discriminate. }
    rewrite (b2x_fin _ Fi) in X. injection X as X. auto. }
  destruct KR as [KR KF]. assert (KP : 1 <= INR K) by (apply (le_INR 1); auto).
  pose proof u_pos as UP. pose proof u_le as UL. pose proof (INR_bound K BK) as B. pose proof (eta_u (length q) (INR_bpow _ Bq)) as BE.
  pose proof eta_pos as EP.
  pose proof (pow_lo K) as P1. pose proof (pow_hi K ltac:(lra)) as P2.
  assert (T0 : 0 <= Rsum (map (fun vs => Rsum (map B2R vs)) vss)).
  { apply Rsum_nonneg, Forall_map. eapply Forall_impl; [|exact HV]. intros vs [_ Hv]. apply Rsum_nonneg, Forall_map. auto. }
  assert (W : Rsum (map (fun vs => Rsum (map B2R vs)) vss) / INR K * (1 - u) ^ K - INR (length q) * eta <= Rsum (map B2R q) <=
              Rsum (map (fun vs => Rsum (map B2R vs)) vss) / INR K * (1 + u) ^ K + INR (length q) * eta).
  { clear HS T0 Bq BE. induction H as [|vs y vss q [D Fy] H IH]; [cbn; lra|]. inversion HV as [|? ? [LV NV] HV']; subst. specialize (IH HV').
    cbn [map Rsum length]. rewrite S_INR. destruct vs as [|v t]; [cbn in HK; lia|].
    pose proof (div_fin_inv _ _ _ D Fy KF) as FS. destruct (div_fin _ _ _ FS KF D Fy) as [_ Ey]. rewrite KR in Ey.
    inversion NV as [|? ? Hv Nt]; subst. pose proof (fold_err t v FS Hv Nt) as FE. cbn [length] in *.
    destruct (rnd_err (B2R (fold_left f_add t v) / INR (S (length t)))) as (d & e' & Hd & He' & R). rewrite <- Ey in R.
    apply Rabs_le_inv in Hd. apply Rabs_le_inv in He'. cbn [map Rsum].
    set (s := B2R (fold_left f_add t v)) in *. set (k := INR (S (length t))) in *. set (a := B2R v + Rsum (map B2R t)) in *.
    set (r := Rsum (map (fun vs => Rsum (map B2R vs)) vss)) in *.
    replace ((a + r) / k) with (a / k + r / k) by (field; lra).
    assert (A0 : 0 <= a) by (unfold a; apply Rplus_le_le_0_compat; [auto|apply Rsum_nonneg, Forall_map; auto]).
    assert (IK : 0 < / k) by (apply Rinv_0_lt_compat; lra).
    assert (0 <= (1 - u) ^ length t) by (apply pow_le; lra). assert (0 <= (1 + u) ^ length t) by (apply pow_le; lra).
    assert (S0 : 0 <= s) by (eapply Rle_trans; [|apply FE]; apply Rmult_le_pos; auto).
    assert (G1 : a / k * (1 - u) ^ S (length t) <= s / k * (1 + d)).
    { cbn [pow]. replace (a / k * ((1 - u) * (1 - u) ^ length t)) with ((a * (1 - u) ^ length t) / k * (1 - u)) by (unfold Rdiv; ring).
      apply Rmult_le_compat; try lra. - apply Rmult_le_pos; [apply Rmult_le_pos; auto|lra]. - apply Rmult_le_compat_r; [lra|]. apply FE. }
    assert (G2 : s / k * (1 + d) <= a / k * (1 + u) ^ S (length t)).
    { cbn [pow]. replace (a / k * ((1 + u) * (1 + u) ^ length t)) with ((a * (1 + u) ^ length t) / k * (1 + u)) by (unfold Rdiv; ring).
      apply Rmult_le_compat; try lra. - apply Rmult_le_pos; [auto|lra]. - apply Rmult_le_compat_r; [lra|]. apply FE. }
    nra. }
  split.
  - clear - H. induction H as [|? ? ? ? [? ?]]; constructor; auto.
  - change (map real q) with (map B2R q). rewrite ulp1_u. set (T := Rsum (map (fun vs => Rsum (map B2R vs)) vss)) in *.
    apply Rabs_le_inv in HS. set (N := INR K * u) in *. assert (0 <= N) by (unfold N; nra).
    assert (Q0 : 0 <= T / INR K) by (apply Rmult_le_pos; [auto|apply Rlt_le, Rinv_0_lt_compat; lra]).
    assert (Q1 : 1 - e <= T / INR K <= 1 + e).
    { split; apply Rmult_le_reg_r with (INR K); try lra; unfold Rdiv; rewrite Rmult_assoc, Rinv_l by lra; nra. }
    assert (Q2 : / (1 - N) <= 1 + 2 * N). { apply Rmult_le_reg_l with (1 - N); [lra|]. rewrite Rinv_r by lra. nra. }
    assert (Q3 : T / INR K * (1 + u) ^ K <= (1 + e) * (1 + 2 * N)).
    { apply Rmult_le_compat; try lra. apply pow_le. lra. }
    assert (Q4 : (1 - e) * (1 - N) <= T / INR K * (1 - u) ^ K).
    { apply Rmult_le_compat; try lra. }
    replace ((2 * INR K + 1) * (2 * u)) with (4 * N + 2 * u) by (unfold N; ring). apply Rabs_le. nra.
Qed.
