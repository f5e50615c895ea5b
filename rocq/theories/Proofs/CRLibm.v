(** A libm whose exp and log are correctly rounded: it satisfies every
    hypothesis of Spec/Libm.v, so those hypotheses are consistent. *)
From Coq Require Import Reals Lra ZArith Bool.
From Flocq Require Import Core BinarySingleNaN.
From Verif Require Import Model.Py Model.Arith Model.F64 Model.XR Spec.Libm Proofs.Lib Proofs.Laws Proofs.Round.
Local Open Scope R_scope.

Definition of_real (r : R) : f64 :=
  f_ofZE (ZnearestE (scaled_mantissa radix2 fexp64 r)) (cexp radix2 fexp64 r).

Lemma rnd_idem : forall r, rnd (rnd r) = rnd r.
Proof. intro r. apply rnd_gen. apply generic_format_round; auto with typeclass_instances. Qed.

Lemma rnd_sign : forall r, 0 <= r -> 0 <= rnd r.
Proof. intros r H. rewrite <- rnd_0. apply rnd_mono; auto. Qed.

Lemma of_real_ok : forall r, Rabs (rnd r) < maxb -> is_finite (of_real r) = true /\ B2R (of_real r) = rnd r.
Proof.
  intros r H. pose proof (f_ofZE_x (ZnearestE (scaled_mantissa radix2 fexp64 r)) (cexp radix2 fexp64 r)) as E.
  fold (of_real r) in E. change (F2R _) with (rnd r) in E.
  unfold fround in E. rewrite rnd_idem, Rlt_bool_true in E by auto.
  destruct (is_finite (of_real r)) eqn:F.
  - split; auto. rewrite b2x_fin in E by auto. congruence.
  - destruct (of_real r) as [|[]| |]; discriminate.
Qed.

Definition crlibm : libm := {|
  m_exp := fun x => if Rlt_bool (rnd (exp (B2R x))) maxb then Some (of_real (exp (B2R x))) else None;
  m_log := fun x => of_real (ln (B2R x)) |}.

Lemma rnd_1 : rnd 1 = 1.
Proof. apply rnd_gen. apply (gen_IZR 1). lia. Qed.
Lemma one_lt_maxb : 1 < maxb.
Proof. apply (bpow_lt radix2 0 1024). lia. Qed.

Lemma rnd_exp_pos : forall x, 0 <= rnd (exp x).
Proof. intro. apply rnd_sign. left. apply exp_pos. Qed.

Lemma cr_exp_some : forall x, rnd (exp (B2R x)) < maxb ->
  exists y, m_exp crlibm x = Some y /\ is_finite y = true /\ B2R y = rnd (exp (B2R x)).
Proof.
  intros x H. simpl. rewrite Rlt_bool_true by auto. eexists; split; [reflexivity|].
  apply of_real_ok. rewrite Rabs_pos_eq; auto. apply rnd_exp_pos.
Qed.

Lemma cr_exp_nonneg : exp_nonneg crlibm.
Proof.
  intros x y Fx. simpl. destruct (Rlt_bool_spec (rnd (exp (B2R x))) maxb); [|discriminate].
  intro E. injection E as <-. destruct (of_real_ok (exp (B2R x))) as [F V].
  - rewrite Rabs_pos_eq; auto. apply rnd_exp_pos.
  - split; auto. rewrite V. apply rnd_exp_pos.
Qed.

Lemma cr_exp_le1 : exp_le1 crlibm.
Proof.
  intros x Fx Hx.
  assert (L : rnd (exp (B2R x)) <= 1).
  { rewrite <- rnd_1. apply rnd_mono. rewrite <- exp_0. 
    destruct Hx as [Hx|Hx]; [left; apply exp_increasing; auto | rewrite Hx; lra]. }
  destruct (cr_exp_some x) as (y & E & F & V); [pose proof one_lt_maxb; lra|].
  exists y. rewrite V. repeat split; auto. apply rnd_exp_pos.
Qed.

Lemma cr_exp_0 : exp_at_0 crlibm.
Proof.
  intro s. destruct (cr_exp_some (B754_zero s)) as (y & E & F & V).
  - simpl. rewrite exp_0, rnd_1. apply one_lt_maxb.
  - exists y. repeat split; auto. rewrite V. simpl. rewrite exp_0. apply rnd_1.
Qed.

Definition f1000 : f64 := f_ofZE 1000 0.
Definition fm1000 : f64 := f_ofZE (-1000) 0.
Lemma f1000_val : is_finite f1000 = true /\ B2R f1000 = 1000.
Proof.
  pose proof (f_ofZ_x 1000 ltac:(lia)) as E. fold f1000 in E. split; [reflexivity|].
  rewrite b2x_fin in E by reflexivity. congruence.
Qed.
Lemma fm1000_val : is_finite fm1000 = true /\ B2R fm1000 = -1000.
Proof.
  pose proof (f_ofZ_x (-1000) ltac:(lia)) as E. fold fm1000 in E. split; [reflexivity|].
  rewrite b2x_fin in E by reflexivity. congruence.
Qed.

Lemma exp_pow : forall n, exp (INR n) = exp 1 ^ n.
Proof.
  induction n as [|n IH]; [simpl; apply exp_0|].
  rewrite S_INR, exp_plus, IH. simpl. ring.
Qed.

Lemma e_ge : 9 / 4 <= exp 1.
Proof.
  replace 1 with (1 / 2 + 1 / 2) by lra. rewrite exp_plus.
  pose proof (exp_ineq1_le (1 / 2)) as H.
  apply Rle_trans with ((1 + 1 / 2) * (1 + 1 / 2)); [lra|]. apply Rmult_le_compat; lra.
Qed.

Lemma bpow_pow : forall n, bpow radix2 (Z.of_nat n) = 2 ^ n.
Proof. intro n. rewrite bpow_powerRZ, <- pow_powerRZ. reflexivity. Qed.

(** exp(10 n) >= 2^(11 n) *)
Lemma exp_big : forall n, bpow radix2 (Z.of_nat (11 * n)) <= exp (INR (10 * n)).
Proof.
  intro n. rewrite bpow_pow, exp_pow, !pow_mult. apply pow_incr. split; [simpl; lra|].
  apply Rle_trans with ((9 / 4) ^ 10); [simpl; lra|].
  apply pow_incr. pose proof e_ge. lra.
Qed.

(** exp(1000) >= 2^1100 *)
Lemma exp1000 : bpow radix2 1100 <= exp 1000.
Proof.
  pose proof (exp_big (Z.to_nat 100)) as H.
  rewrite Nat2Z.inj_mul, mult_INR, INR_IZR_INZ, (INR_IZR_INZ (Z.to_nat 100)), !Z2Nat.id in H by lia.
  change (Z.of_nat 11 * 100)%Z with 1100%Z in H. simpl (IZR (Z.of_nat 10)) in H.
  replace 1000 with (10 * 100) by lra. exact H.
Qed.

Lemma cr_over : exp_overflows crlibm f1000.
Proof.
  unfold exp_overflows. cbn [m_exp crlibm]. rewrite (proj2 f1000_val). rewrite Rlt_bool_false; auto.
  apply Rle_trans with (rnd (bpow radix2 1100)).
  - rewrite rnd_gen; [apply bpow_le; lia|]. apply generic_format_bpow. unfold SpecFloat.fexp, SpecFloat.emin. lia.
  - apply rnd_mono. apply exp1000.
Qed.

Lemma rnd_tiny : forall r, 0 <= r < bpow radix2 (-1076) -> rnd r = 0.
Proof.
  intros r [H0 H]. destruct (Req_dec r 0) as [->|N]; [apply rnd_0|].
  apply round_N_small_pos with (ex := mag radix2 r).
  - destruct (mag radix2 r) as [e He]. simpl. specialize (He N). rewrite Rabs_pos_eq in He; auto.
  - destruct (mag radix2 r) as [e He]. simpl. specialize (He N). rewrite Rabs_pos_eq in He; auto.
    assert (e - 1 < -1076)%Z by (apply (lt_bpow radix2); lra).
    unfold SpecFloat.fexp, SpecFloat.emin. lia.
Qed.

Lemma cr_under : exp_underflows crlibm fm1000.
Proof.
  assert (L : exp (-1000) < bpow radix2 (-1076)).
  { replace (-1000) with (- (1000)) by lra; rewrite exp_Ropp. apply Rle_lt_trans with (/ bpow radix2 1100).
    - apply Rinv_le; [apply bpow_gt_0|apply exp1000].
    - rewrite <- bpow_opp. apply bpow_lt. lia. }
  destruct (cr_exp_some fm1000) as (y & E & F & V); rewrite (proj2 fm1000_val) in *.
  - rewrite rnd_tiny; [apply maxb_pos|]. split; auto. left; apply exp_pos.
  - rewrite rnd_tiny in V by (split; auto; left; apply exp_pos).
    destruct (B2R_0 y F V) as [s ->]. exists s; auto.
Qed.

(** |ln x| < 2^1024 for positive finite x *)
Lemma ln_abs : forall x, 0 < x -> Rabs (ln x) <= x + / x.
Proof.
  intros x Hx. assert (0 < / x) by (apply Rinv_0_lt_compat; auto).
  assert (U : forall y, 0 < y -> ln y <= y - 1).
  { intros y Hy. pose proof (exp_ineq1_le (ln y)) as E. rewrite exp_ln in E by auto. lra. }
  pose proof (U x Hx). pose proof (U (/ x) H). rewrite ln_Rinv in H1 by auto.
  apply Rabs_le. lra.
Qed.

Lemma log_fits : forall x : f64, is_finite x = true -> 0 < B2R x -> Rabs (rnd (ln (B2R x))) < maxb.
Proof.
  intros x Fx Hx.
  (* |ln x| <= 1100 * ln 2 <= 1100 *)
  assert (L2 : ln 2 <= 1).
  { pose proof (exp_ineq1_le 1). rewrite <- (ln_exp 1). 
    destruct (Rle_lt_or_eq_dec 2 (exp 1)) as [h|h]; [lra| |].
    - left. apply ln_increasing; lra.
    - rewrite <- h. lra. }
  assert (L20 : 0 < ln 2) by (rewrite <- ln_1; apply ln_increasing; lra).
  assert (BP : forall e, ln (bpow radix2 e) = IZR e * ln 2).
  { intro e. rewrite bpow_powerRZ. 
    assert (P : forall n, ln (2 ^ n) = INR n * ln 2).
    { induction n as [|n IH]; simpl pow; [simpl; rewrite ln_1; lra|].
      rewrite ln_mult, IH, S_INR by (try lra; apply pow_lt; lra). lra. }
    destruct e as [|p|p]; simpl.
    - rewrite ln_1. lra.
    - rewrite P, INR_IZR_INZ, positive_nat_Z. reflexivity.
    - rewrite ln_Rinv, P, INR_IZR_INZ, positive_nat_Z by (apply pow_lt; lra).
      rewrite <- Pos2Z.opp_pos, opp_IZR. lra. }
  assert (lo : bpow radix2 (-1100) <= B2R x).
  { apply Rle_trans with (bpow radix2 (3 - 1024 - 53)); [apply bpow_le; lia|].
    pose proof (abs_B2R_ge_emin 53 1024 x) as G.
    rewrite Rabs_pos_eq in G by lra. apply G.
    destruct x; simpl in Hx; try lra; try discriminate; auto. }
  assert (hi : B2R x <= bpow radix2 1100).
  { pose proof (abs_B2R_lt_emax 53 1024 x) as G. rewrite Rabs_pos_eq in G by lra.
    assert (bpow radix2 1024 <= bpow radix2 1100) by (apply bpow_le; lia). lra. }
  assert (Bd : Rabs (ln (B2R x)) <= 1100).
  { assert (M : forall a b, 0 < a -> a <= b -> ln a <= ln b).
    { intros a b Ha [Hab|Hab]; [left; apply ln_increasing; auto|rewrite Hab; lra]. }
    pose proof (M _ _ (bpow_gt_0 radix2 (-1100)) lo) as M1. pose proof (M _ _ Hx hi) as M2.
    rewrite BP in M1, M2. apply Rabs_le. lra. }
  apply Rle_lt_trans with 1100.
  - apply Rabs_le. apply Rabs_le_inv in Bd. split.
    + change (- (1100)) with (Ropp 1100). replace (Ropp 1100) with (-1100) by lra. rewrite <- (rnd_gen (-1100)) by (apply (gen_IZR (-1100)); lia). apply rnd_mono. lra.
    + rewrite <- (rnd_gen 1100) by (apply (gen_IZR 1100); lia). apply rnd_mono. lra.
  - apply Rlt_le_trans with (bpow radix2 11); [simpl; lra|]. apply bpow_le. lia.
Qed.
Lemma cr_log_finite : log_finite crlibm.
Proof. intros x Fx Hx. cbn [m_log crlibm]. apply of_real_ok. apply log_fits; auto. Qed.

(** A tiny positive double: exp of its opposite rounds to 1. *)
Definition ftiny : f64 := f_ofZE 1 (-60).
Lemma ftiny_val : is_finite ftiny = true /\ B2R ftiny = bpow radix2 (-60).
Proof.
  split; [reflexivity|]. pose proof (f_ofZE_x 1 (-60)) as E. fold ftiny in E. rewrite b2x_fin in E by reflexivity.
  unfold fround in E. assert (Q : F2R (Float radix2 1 (-60)) = bpow radix2 (-60)) by (unfold F2R; cbn [Fnum Fexp]; apply Rmult_1_l).
  rewrite Q in E. rewrite rnd_gen in E by (apply generic_format_bpow; unfold SpecFloat.fexp, SpecFloat.emin; lia).
  rewrite Rlt_bool_true in E.
  - injection E as E. exact E.
  - rewrite Rabs_pos_eq by apply bpow_ge_0. apply bpow_lt. lia.
Qed.
Lemma rnd_near_1 : forall r, 1 - bpow radix2 (-60) <= r <= 1 -> rnd r = 1.
Proof.
  intros r [H0 H1]. apply Rle_antisym; [rewrite <- rnd_1; apply rnd_mono; auto|].
  unfold rnd. apply round_N_ge_midp; [apply vexp64|apply (gen_IZR 1); lia|].
  change 1 with (bpow radix2 0). rewrite pred_bpow. change (bpow radix2 0) with 1.
  assert (E : fexp64 0 = (-53)%Z) by reflexivity. rewrite E.
  assert (bpow radix2 (-60) < bpow radix2 (-54)) by (apply bpow_lt; lia).
  assert (bpow radix2 (-53) = 2 * bpow radix2 (-54)) by (change (-53)%Z with (1 + -54)%Z; rewrite bpow_plus; auto).
  lra.
Qed.
Definition exp_is_1_at (m : libm) (x : f64) : Prop := exists y, m_exp m x = Some y /\ is_finite y = true /\ B2R y = 1.
Lemma cr_tiny : exp_is_1_at crlibm (f_opp ftiny).
Proof.
  assert (V : B2R (f_opp ftiny) = - bpow radix2 (-60)) by (unfold f_opp; rewrite B2R_Bopp, (proj2 ftiny_val); auto).
  assert (R : rnd (exp (B2R (f_opp ftiny))) = 1).
  { rewrite V. apply rnd_near_1. pose proof (bpow_gt_0 radix2 (-60)). split.
    - pose proof (exp_ineq1_le (- bpow radix2 (-60))). lra.
    - rewrite <- exp_0. left. apply exp_increasing. lra. }
  destruct (cr_exp_some (f_opp ftiny)) as (y & E & F & VY); [rewrite R; apply one_lt_maxb|].
  exists y. rewrite R in VY. auto.
Qed.

Lemma cr_exp_monotone : exp_monotone crlibm.
Proof.
  intros x y Fx Fy H. assert (E : exp (B2R x) <= exp (B2R y)).
  { destruct H as [H|H]; [left; apply exp_increasing; auto|rewrite H; lra]. }
  apply rnd_mono in E. pose proof (rnd_exp_pos (B2R x)). simpl.
  destruct (Rlt_bool_spec (rnd (exp (B2R x))) maxb) as [Hx|Hx], (Rlt_bool_spec (rnd (exp (B2R y))) maxb) as [Hy|Hy]; auto; [|lra].
  destruct (of_real_ok (exp (B2R x))) as [_ ->]; [rewrite Rabs_pos_eq; auto|].
  destruct (of_real_ok (exp (B2R y))) as [_ ->]; [rewrite Rabs_pos_eq; auto; lra|]. auto.
Qed.
