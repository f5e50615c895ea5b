(** Double operations are the exact extended-real operations followed by
    rounding; rounding is monotone and fixes representable numbers. *)
From Coq Require Import Reals Lra ZArith Bool.
From Flocq Require Import Core BinarySingleNaN.
From Verif Require Import Model.Py Model.Arith Model.F64 Model.XR Proofs.Lib Proofs.Laws.
Local Open Scope R_scope.

Notation fexp64 := (SpecFloat.fexp 53 1024).
Definition rnd (r : R) : R := round radix2 fexp64 ZnearestE r.
Definition maxb : R := bpow radix2 1024.

Definition fround (r : R) : xr :=
  if Rlt_bool (Rabs (rnd r)) maxb then XFin (rnd r)
  else if Rlt_bool r 0 then XNInf else XPInf.
Definition xround (x : xr) : xr := match x with XFin r => fround r | _ => x end.

#[global] Instance vexp64 : Valid_exp fexp64. Proof. apply fexp_correct. apply prec53. Qed.
#[global] Instance mono64 : Monotone_exp fexp64. Proof. apply fexp_monotone. Qed.

Lemma rnd_0 : rnd 0 = 0. Proof. apply round_0, valid_rnd_N. Qed.
Lemma rnd_mono : forall x y, x <= y -> rnd x <= rnd y.
Proof. intros; apply round_le; auto with typeclass_instances. Qed.
Lemma rnd_gen : forall x, generic_format radix2 fexp64 x -> rnd x = x.
Proof. intros; apply round_generic; auto with typeclass_instances. Qed.
Lemma rnd_B2R : forall x : f64, rnd (B2R x) = B2R x.
Proof. intros; apply rnd_gen, generic_format_B2R. Qed.
Lemma rnd_opp : forall x, rnd (- x) = - rnd x.
Proof. intros; apply round_NE_opp. Qed.

Lemma fround_B2R : forall x : f64, fround (B2R x) = XFin (B2R x).
Proof.
  intros x. unfold fround. rewrite rnd_B2R, Rlt_bool_true; auto. apply abs_B2R_lt_emax.
Qed.
Lemma fround_0 : fround 0 = XFin 0.
Proof. apply (fround_B2R (B754_zero false)). Qed.
Lemma xround_b2x : forall x : f64, xround (b2x x) = b2x x.
Proof.
  intros x. destruct (is_finite x) eqn:F.
  - rewrite b2x_fin by auto. apply fround_B2R.
  - destruct x as [|[]| |]; try discriminate; auto.
Qed.

Lemma maxb_pos : 0 < maxb. Proof. apply bpow_gt_0. Qed.

Lemma fround_mono : forall a b, a <= b -> x_leb (fround a) (fround b) = true.
Proof.
  intros a b H. unfold fround. pose proof (rnd_mono _ _ H) as M. pose proof maxb_pos.
  destruct (Rlt_bool_spec (Rabs (rnd a)) maxb) as [Ha|Ha]; destruct (Rlt_bool_spec (Rabs (rnd b)) maxb) as [Hb|Hb]; simpl.
  - apply Rleb_le; auto.
  - destruct (Rlt_bool_spec b 0); simpl; auto. exfalso.
    pose proof (rnd_mono b 0 ltac:(lra)). rewrite rnd_0 in *.
    rewrite Rabs_left1 in Ha by lra. rewrite Rabs_left1 in Hb by lra. lra.
  - destruct (Rlt_bool_spec a 0); simpl; auto. exfalso.
    pose proof (rnd_mono 0 a ltac:(lra)). rewrite rnd_0 in *.
    rewrite Rabs_pos_eq in Ha by lra. rewrite Rabs_pos_eq in Hb by lra. lra.
  - destruct (Rlt_bool_spec a 0); destruct (Rlt_bool_spec b 0); simpl; auto. exfalso. lra.
Qed.

Lemma xround_mono : forall x y, x_leb x y = true -> x_leb (xround x) (xround y) = true.
Proof.
  intros [| | |a] [| | |b]; simpl; intro H; try discriminate; auto.
  - unfold fround. destruct (Rlt_bool _ _); auto. destruct (Rlt_bool _ _); auto.
  - unfold fround. destruct (Rlt_bool _ _); auto. destruct (Rlt_bool _ _); auto.
  - apply fround_mono. apply Rleb_le; auto.
Qed.
Lemma xround_nan : forall x, x_isnan (xround x) = x_isnan x.
Proof.
  intros [| | |a]; simpl; auto. unfold fround. destruct (Rlt_bool _ _); auto. destruct (Rlt_bool _ _); auto.
Qed.

(** The correctness statements of Flocq, in this form. *)
Lemma b2x_of : forall (z : f64) (r : R) (s : bool),
  (if Rlt_bool (Rabs (rnd r)) maxb
   then B2R z = rnd r /\ is_finite z = true /\ True
   else B2SF z = binary_overflow 53 1024 mode_NE s /\ (s = Rlt_bool r 0)) ->
  b2x z = fround r.
Proof.
  intros z r s H. unfold fround. destruct (Rlt_bool _ _).
  - destruct H as (H1 & H2 & _). rewrite b2x_fin, H1; auto.
  - destruct H as (H1 & H2). destruct z as [s'|s'| |s' m e He]; try discriminate H1.
    change (SpecFloat.S754_infinity s' = SpecFloat.S754_infinity s) in H1. 
    injection H1 as ->. rewrite <- H2. destruct s; auto.
Qed.

Lemma rnd_ge_pos : forall r, maxb <= Rabs (rnd r) -> r <> 0.
Proof. intros r H ->. rewrite rnd_0, Rabs_R0 in H. pose proof maxb_pos. lra. Qed.

Lemma f_ofZE_x : forall m e, b2x (f_ofZE m e) = fround (F2R (Float radix2 m e)).
Proof.
  intros m e. pose proof (binary_normalize_correct 53 1024 prec53 emax1024 mode_NE m e false) as C.
  cbv zeta in C. fold (f_ofZE m e) in C. change (round _ _ _ (F2R _)) with (rnd (F2R (Float radix2 m e))) in C.
  fold maxb in C.
  apply (b2x_of _ _ (Rlt_bool (F2R (Float radix2 m e)) 0)).
  destruct (Rlt_bool _ maxb); [destruct C as (C1 & C2 & _)|]; auto.
Qed.

Lemma Bsign_neg : forall x : f64, is_finite x = true -> B2R x < 0 -> Bsign x = true.
Proof.
  intros [s|s| |s m e H]; simpl; intros F L; try discriminate; try lra.
  destruct s; auto. exfalso. apply Rlt_not_le in L. apply L. apply F2R_ge_0. simpl. lia.
Qed.
Lemma Bsign_pos : forall x : f64, is_finite x = true -> 0 < B2R x -> Bsign x = false.
Proof.
  intros [s|s| |s m e H]; simpl; intros F L; try discriminate; try lra.
  destruct s; auto. exfalso. apply Rlt_not_le in L. apply L. apply F2R_le_0. simpl. lia.
Qed.

Lemma f_add_x : forall x y : f64, b2x (f_add x y) = xround (x_add (b2x x) (b2x y)).
Proof.
  intros x y. destruct (is_finite x) eqn:Fx, (is_finite y) eqn:Fy.
  - rewrite (b2x_fin x), (b2x_fin y) by auto. simpl.
    pose proof (Bplus_correct 53 1024 prec53 emax1024 mode_NE x y Fx Fy) as C.
    fold (f_add x y) in C. change (round _ _ _ _) with (rnd (B2R x + B2R y)) in C. fold maxb in C.
    apply (b2x_of _ _ (Bsign x)). destruct (Rlt_bool _ maxb) eqn:E.
    + destruct C as (C1 & C2 & _); auto.
    + destruct C as (C1 & C2). split; auto.
      assert (N : B2R x + B2R y <> 0).
      { apply rnd_ge_pos. destruct (Rlt_bool_spec (Rabs (rnd (B2R x + B2R y))) maxb); [discriminate|auto]. }
      destruct (Rlt_bool_spec (B2R x + B2R y) 0).
      * destruct (Rlt_le_dec (B2R x) 0); [apply Bsign_neg; auto|].
        rewrite C2. apply Bsign_neg; auto. lra.
      * destruct (Rlt_le_dec 0 (B2R x)); [apply Bsign_pos; auto|].
        rewrite C2. apply Bsign_pos; auto. lra.
  - destruct x as [sx|[]| |], y as [sy|[]| |]; try discriminate; reflexivity.
  - destruct x as [sx|[]| |], y as [sy|[]| |]; try discriminate; reflexivity.
  - destruct x as [sx|[]| |], y as [sy|[]| |]; try discriminate; reflexivity.
Qed.

Lemma b2x_opp : forall x : f64, b2x (f_opp x) = x_opp (b2x x).
Proof.
  intros x. destruct (is_finite x) eqn:F.
  - rewrite (b2x_fin x) by auto. rewrite b2x_fin by (unfold f_opp; rewrite is_finite_Bopp; auto).
    unfold f_opp. rewrite B2R_Bopp. auto.
  - destruct x as [|[]| |]; try discriminate; auto.
Qed.
Lemma b2x_abs : forall x : f64, b2x (f_abs x) = x_abs (b2x x).
Proof.
  intros x. destruct (is_finite x) eqn:F.
  - rewrite (b2x_fin x) by auto. rewrite b2x_fin by (unfold f_abs; rewrite is_finite_Babs; auto).
    unfold f_abs. rewrite B2R_Babs. auto.
  - destruct x as [|[]| |]; try discriminate; auto.
Qed.

Lemma f_sub_opp : forall x y : f64, is_finite x = true -> is_finite y = true -> f_sub x y = f_add x (f_opp y).
Proof. intros x y Fx Fy. destruct x, y; try discriminate; reflexivity. Qed.

Lemma f_sub_x : forall x y : f64, b2x (f_sub x y) = xround (x_sub (b2x x) (b2x y)).
Proof.
  intros x y. unfold x_sub. destruct (is_finite x) eqn:Fx, (is_finite y) eqn:Fy.
  - rewrite f_sub_opp, f_add_x, b2x_opp by auto. auto.
  - destruct x as [sx|[]| |], y as [sy|[]| |]; try discriminate; reflexivity.
  - destruct x as [sx|[]| |], y as [sy|[]| |]; try discriminate; reflexivity.
  - destruct x as [sx|[]| |], y as [sy|[]| |]; try discriminate; reflexivity.
Qed.

Lemma B2R_sign_neg : forall s m e H, Rltb (B2R (B754_finite s m e H : f64)) 0 = s /\ Reqb (B2R (B754_finite s m e H : f64)) 0 = false.
Proof.
  intros s m e H. destruct s; simpl.
  - assert (F2R (Float radix2 (Z.neg m) e) < 0) by (apply F2R_lt_0; reflexivity).
    rbool; split; auto; lra.
  - assert (0 < F2R (Float radix2 (Z.pos m) e)) by (apply F2R_gt_0; reflexivity).
    rbool; split; auto; lra.
Qed.

Lemma inf_times_x : forall b s m e H,
  x_inf_times b (B2R (B754_finite s m e H : f64)) = if xorb b s then XNInf else XPInf.
Proof. intros b s m e H. unfold x_inf_times. destruct (B2R_sign_neg s m e H) as [-> ->]. auto. Qed.
Lemma inf_times_0 : forall b, x_inf_times b 0 = XNaN.
Proof. intros; unfold x_inf_times. rbool; auto; lra. Qed.

Lemma f_mul_x : forall x y : f64, b2x (f_mul x y) = xround (x_mul (b2x x) (b2x y)).
Proof.
  intros x y. destruct (is_finite x) eqn:Fx, (is_finite y) eqn:Fy.
  - rewrite (b2x_fin x), (b2x_fin y) by auto. simpl.
    pose proof (Bmult_correct 53 1024 prec53 emax1024 mode_NE x y) as C.
    fold (f_mul x y) in C. change (round _ _ _ _) with (rnd (B2R x * B2R y)) in C. fold maxb in C.
    apply (b2x_of _ _ (xorb (Bsign x) (Bsign y))). destruct (Rlt_bool _ maxb) eqn:E.
    + destruct C as (C1 & C2 & _). rewrite Fx, Fy in C2. auto.
    + split; auto.
      assert (N : B2R x * B2R y <> 0).
      { apply rnd_ge_pos. destruct (Rlt_bool_spec (Rabs (rnd (B2R x * B2R y))) maxb); [discriminate|auto]. }
      assert (B2R x <> 0) by (intro Z; rewrite Z in N; lra).
      assert (B2R y <> 0) by (intro Z; rewrite Z in N; lra).
      destruct (Rlt_le_dec (B2R x) 0) as [Lx|Lx]; destruct (Rlt_le_dec (B2R y) 0) as [Ly|Ly].
      * rewrite (Bsign_neg x), (Bsign_neg y), Rlt_bool_false; auto. 
        replace (B2R x * B2R y) with ((- B2R x) * (- B2R y)) by ring. apply Rmult_le_pos; lra.
      * rewrite (Bsign_neg x), (Bsign_pos y), Rlt_bool_true; auto; try lra.
        assert (0 < (- B2R x) * B2R y) by (apply Rmult_lt_0_compat; lra). lra.
      * rewrite (Bsign_pos x), (Bsign_neg y), Rlt_bool_true; auto; try lra.
        assert (0 < B2R x * (- B2R y)) by (apply Rmult_lt_0_compat; lra). lra.
      * rewrite (Bsign_pos x), (Bsign_pos y), Rlt_bool_false; auto; try lra.
        apply Rmult_le_pos; lra.
  - destruct x as [sx|[]| |sx mx ex Hx], y as [sy|[]| |sy my ey Hy]; try discriminate; try reflexivity;
      cbn [b2x f_mul Bmult x_mul]; rewrite ?inf_times_x; change (B2R (B754_zero _)) with 0; rewrite ?inf_times_0; try reflexivity; destruct sx; reflexivity.
  - destruct x as [sx|[]| |sx mx ex Hx], y as [sy|[]| |sy my ey Hy]; try discriminate; try reflexivity;
      cbn [b2x f_mul Bmult x_mul]; rewrite ?inf_times_x; change (B2R (B754_zero _)) with 0; rewrite ?inf_times_0; try reflexivity; destruct sy; reflexivity.
  - destruct x as [sx|[]| |], y as [sy|[]| |]; try discriminate; reflexivity.
Qed.

Definition rmap {X Y} (f : X -> Y) (r : res X) : res Y :=
  match r with Ok a => Ok (f a) | Err e => Err e end.

Lemma B2R_0 : forall x : f64, is_finite x = true -> B2R x = 0 -> exists s, x = B754_zero s.
Proof.
  intros [s|s| |s m e H] F E; try discriminate; eauto. exfalso.
  pose proof (proj2 (B2R_sign_neg s m e H)). rewrite E in H0. revert H0. rbool; congruence.
Qed.

Lemma f_div_x : forall x y : f64, rmap b2x (f_div x y) = rmap xround (x_div (b2x x) (b2x y)).
Proof.
  intros x y. destruct y as [sy|sy| |sy my ey Hy].
  - destruct x as [sx|[]| |]; simpl; rbool; auto; lra.
  - destruct x as [sx|[]| |], sy; simpl; rewrite ?fround_0; reflexivity.
  - destruct x as [sx|[]| |]; reflexivity.
  - set (y := B754_finite sy my ey Hy : f64).
    assert (Ny : B2R y <> 0).
    { intro E. pose proof (proj2 (B2R_sign_neg sy my ey Hy)) as N. fold y in N. rewrite E in N. revert N. rbool; congruence. }
    change (b2x y) with (XFin (B2R y)).
    change (f_div x y) with (Ok (Bdiv mode_NE x y)). unfold x_div.
    replace (Reqb (B2R y) 0) with false by (symmetry; apply Reqb_neq; auto).
    destruct (is_finite x) eqn:Fx.
    + assert (Fy : is_finite y = true) by reflexivity. clearbody y.
      rewrite (b2x_fin x) by auto. simpl rmap. f_equal.
      pose proof (Bdiv_correct 53 1024 prec53 emax1024 mode_NE x y Ny) as C.
      change (round _ _ _ _) with (rnd (B2R x / B2R y)) in C. fold maxb in C.
      apply (b2x_of _ _ (xorb (Bsign x) (Bsign y))). destruct (Rlt_bool _ maxb) eqn:E.
      * destruct C as (C1 & C2 & _). rewrite Fx in C2. auto.
      * split; auto.
        assert (N : B2R x / B2R y <> 0).
        { apply rnd_ge_pos. destruct (Rlt_bool_spec (Rabs (rnd (B2R x / B2R y))) maxb); [discriminate|auto]. }
        assert (B2R x <> 0) by (intro Z; rewrite Z in N; unfold Rdiv in N; lra).
        unfold Rdiv in *.
        destruct (Rlt_le_dec (B2R x) 0) as [Lx|Lx]; destruct (Rlt_le_dec (B2R y) 0) as [Ly|Ly].
        -- rewrite (Bsign_neg x), (Bsign_neg y), Rlt_bool_false; auto.
           assert (/ B2R y < 0) by (apply Rinv_lt_0_compat; lra).
           replace (B2R x * / B2R y) with ((- B2R x) * (- / B2R y)) by ring. apply Rmult_le_pos; lra.
        -- assert (0 < / B2R y) by (apply Rinv_0_lt_compat; lra).
           rewrite (Bsign_neg x), (Bsign_pos y), Rlt_bool_true; auto; try lra.
           assert (0 < (- B2R x) * / B2R y) by (apply Rmult_lt_0_compat; lra). lra.
        -- assert (/ B2R y < 0) by (apply Rinv_lt_0_compat; lra).
           rewrite (Bsign_pos x), (Bsign_neg y), Rlt_bool_true; auto; try lra.
           assert (0 < B2R x * (- / B2R y)) by (apply Rmult_lt_0_compat; lra). lra.
        -- assert (0 < / B2R y) by (apply Rinv_0_lt_compat; lra).
           rewrite (Bsign_pos x), (Bsign_pos y), Rlt_bool_false; auto; try lra.
           apply Rmult_le_pos; lra.
    + destruct x as [sx|[]| |]; try discriminate; cbn [b2x rmap xround Bdiv y];
        unfold y; rewrite ?inf_times_x; destruct sy; reflexivity.
Qed.

Lemma f_sqrt_x : forall x : f64, rmap b2x (f_sqrt x) = rmap xround (x_sqrt (b2x x)).
Proof.
  intros x. destruct x as [s|[]| |s m e H]; try reflexivity.
  - simpl. rbool; try lra. simpl. rewrite sqrt_0. f_equal. symmetry. apply (fround_B2R (B754_zero s)).
  - pose proof (B2R_sign_neg s m e H) as [Hs _]. destruct s.
    + simpl. simpl in Hs. rewrite Hs. reflexivity.
    + set (x := B754_finite false m e H : f64) in *. change (b2x x) with (XFin (B2R x)). 
      unfold x_sqrt. rewrite Hs. change (f_sqrt x) with (Ok (Bsqrt mode_NE x)).
      pose proof (Bsqrt_correct 53 1024 prec53 emax1024 mode_NE x) as (C1 & C2 & _).
      change (round _ _ _ _) with (rnd (sqrt (B2R x))) in C1.
      assert (F : is_finite (Bsqrt mode_NE x) = true) by exact C2.
      clear C2. clearbody x. cbn [rmap xround]. f_equal.
      rewrite b2x_fin by auto. unfold fround. rewrite <- C1, Rlt_bool_true by apply abs_B2R_lt_emax. auto.
Qed.

(** Integers up to 2^53 are exact. *)
Lemma gen_IZR : forall n, (Z.abs n <= 2 ^ 53)%Z -> generic_format radix2 fexp64 (IZR n).
Proof.
  intros n Hn. destruct (Z.eq_dec (Z.abs n) (2 ^ 53)) as [E|E].
  - assert (G : generic_format radix2 fexp64 (bpow radix2 53)).
    { apply generic_format_bpow. unfold SpecFloat.fexp, SpecFloat.emin. lia. }
    assert (D : n = (2 ^ 53)%Z \/ n = (- 2 ^ 53)%Z) by lia.
    destruct D as [-> | ->].
    + replace (IZR (2 ^ 53)) with (bpow radix2 53) by (rewrite <- IZR_Zpower by lia; reflexivity). auto.
    + rewrite opp_IZR. replace (IZR (2 ^ 53)) with (bpow radix2 53) by (rewrite <- IZR_Zpower by lia; reflexivity).
      apply generic_format_opp; auto.
  - apply (generic_format_FLT radix2 (3 - 1024 - 53) 53).
    exists (Float radix2 n 0); simpl; try lia.
    unfold F2R; simpl; lra.
Qed.

Lemma fround_IZR : forall n, (Z.abs n <= 2 ^ 53)%Z -> fround (IZR n) = XFin (IZR n).
Proof.
  intros n Hn. unfold fround. rewrite rnd_gen by (apply gen_IZR; auto).
  rewrite Rlt_bool_true; auto. rewrite <- abs_IZR.
  apply Rle_lt_trans with (IZR (2 ^ 53)); [apply IZR_le; auto|].
  change (IZR (2 ^ 53)) with (IZR (radix2 ^ 53)). rewrite (IZR_Zpower radix2 53) by lia. apply bpow_lt. lia.
Qed.
Lemma f_ofZ_x : forall n, (Z.abs n <= 2 ^ 53)%Z -> b2x (f_ofZE n 0) = XFin (IZR n).
Proof.
  intros n Hn. rewrite f_ofZE_x. replace (F2R _) with (IZR n) by (unfold F2R; simpl; lra). apply fround_IZR; auto.
Qed.

(** Two doubles with the same value are the same, except for the sign of 0. *)
Lemma b2x_inj : forall x y : f64, b2x x = b2x y -> x = y \/ (exists s t, x = B754_zero s /\ y = B754_zero t).
Proof.
  intros x y E. destruct (is_finite x) eqn:Fx.
  - assert (Fy : is_finite y = true).
    { rewrite (b2x_fin x Fx) in E. destruct y as [|[]| |]; auto; discriminate. }
    rewrite !b2x_fin in E by auto. injection E as E.
    destruct (Req_dec (B2R x) 0) as [Z|Z].
    + right. destruct (B2R_0 x Fx Z) as [s ->]. destruct (B2R_0 y Fy) as [t ->]; [congruence|]. eauto.
    + left. apply B2R_inj; auto; 
        [destruct x|destruct y]; simpl in *; try discriminate; auto; exfalso; apply Z; auto.
  - left. destruct x as [|[]| |]; try discriminate; destruct y as [|[]| |]; try discriminate; auto.
Qed.
