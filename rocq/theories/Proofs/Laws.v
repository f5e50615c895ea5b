(** Laws of the two number systems, proved for IEEE doubles and for exact
    extended reals. *)
From Coq Require Import Reals Lra ZArith Bool.
From Flocq Require Import Core BinarySingleNaN Plus_error.
From Verif Require Export Spec.Matrix.
From Verif Require Import Model.Py Model.Arith Model.F64 Model.XR Proofs.Lib.
Local Open Scope R_scope.

(** Order laws. *)
Record ord_ok (A : arith) : Prop := {
  o_nan : forall x : A, isnan x = negb (eqb x x);
  o_leb : forall x y : A, leb x y = ltb x y || eqb x y;
  o_sym : forall x y : A, eqb x y = eqb y x;
  o_eq_trans : forall x y z : A, eqb x y = true -> eqb y z = true -> eqb x z = true;
  o_irr : forall x : A, ltb x x = false;
  o_trans : forall x y z : A, ltb x y = true -> ltb y z = true -> ltb x z = true;
  o_total : forall x y : A, isnan x = false -> isnan y = false ->
            ltb x y = true \/ eqb x y = true \/ ltb y x = true;
  o_eq_lt_l : forall x y z : A, eqb x y = true -> ltb x z = ltb y z;
  o_eq_lt_r : forall x y z : A, eqb x y = true -> ltb z x = ltb z y;
  o_lt_nan : forall x y : A, ltb x y = true -> isnan x = false /\ isnan y = false;
}.

(** [a + 0] is [a] itself (false only for the float -0.0). *)
Definition clean {A : arith} (a : A) : Prop := add a zero = a.

Record arith_ok (A : arith) : Prop := {
  a_ord :> ord_ok A;
  a_zero : isnan (zero : A) = false;
  a_clean0 : clean (zero : A);
  a_clean_add : forall a b : A, clean a -> clean (add a b);
  a_absorb : forall a z : A, clean a -> eqb z zero = true -> add a z = a;
  a_mul_zero : forall z b : A, eqb z zero = true -> finite b -> eqb (mul z b) zero = true;
  a_mul_comm : forall a b : A, mul a b = mul b a;
  a_add_comm : forall a b : A, add a b = add b a;
  a_mul_one : forall a : A, mul a one = a;
  a_one : eqb (one : A) zero = false /\ isnan (one : A) = false /\ ltb (zero : A) one = true;
}.

(** * Exact extended reals *)
Lemma Rltb_lt : forall x y, Rltb x y = true <-> x < y.
Proof. intros; unfold Rltb; destruct (Rlt_dec x y); split; congruence. Qed.
Lemma Rltb_ge : forall x y, Rltb x y = false <-> y <= x.
Proof. intros; unfold Rltb; destruct (Rlt_dec x y); split; intro; try congruence; lra. Qed.
Lemma Rleb_le : forall x y, Rleb x y = true <-> x <= y.
Proof. intros; unfold Rleb; destruct (Rle_dec x y); split; congruence. Qed.
Lemma Rleb_gt : forall x y, Rleb x y = false <-> y < x.
Proof. intros; unfold Rleb; destruct (Rle_dec x y); split; intro; try congruence; lra. Qed.
Lemma Reqb_eq : forall x y, Reqb x y = true <-> x = y.
Proof. intros; unfold Reqb; destruct (Req_EM_T x y); split; congruence. Qed.
Lemma Reqb_neq : forall x y, Reqb x y = false <-> x <> y.
Proof. intros; unfold Reqb; destruct (Req_EM_T x y); split; congruence. Qed.

Ltac rbool :=
  repeat match goal with
  | |- context [Rltb ?a ?b] => unfold Rltb
  | |- context [Rleb ?a ?b] => unfold Rleb
  | |- context [Reqb ?a ?b] => unfold Reqb
  | H : context [Rltb ?a ?b] |- _ => unfold Rltb in H
  | H : context [Rleb ?a ?b] |- _ => unfold Rleb in H
  | H : context [Reqb ?a ?b] |- _ => unfold Reqb in H
  end;
  repeat match goal with
  | |- context [Rlt_dec ?a ?b] => destruct (Rlt_dec a b)
  | |- context [Rle_dec ?a ?b] => destruct (Rle_dec a b)
  | |- context [Req_EM_T ?a ?b] => destruct (Req_EM_T a b)
  | H : context [Rlt_dec ?a ?b] |- _ => destruct (Rlt_dec a b)
  | H : context [Rle_dec ?a ?b] |- _ => destruct (Rle_dec a b)
  | H : context [Req_EM_T ?a ?b] |- _ => destruct (Req_EM_T a b)
  end.

Lemma XR_ord : ord_ok XR.
Proof.
  constructor; simpl.
  - intros [| | |a]; simpl; auto. rbool; simpl; auto; lra.
  - intros [| | |a] [| | |b]; simpl; auto. rbool; simpl; auto; lra.
  - intros [| | |a] [| | |b]; simpl; auto. rbool; auto; lra.
  - intros [| | |a] [| | |b] [| | |c]; simpl; auto; try discriminate. rbool; auto; try discriminate; lra.
  - intros [| | |a]; simpl; auto. rbool; auto; lra.
  - intros [| | |a] [| | |b] [| | |c]; simpl; auto; try discriminate. rbool; auto; try discriminate; lra.
  - intros [| | |a] [| | |b]; simpl; intros; try discriminate; auto. rbool; auto; lra.
  - intros [| | |a] [| | |b] [| | |c]; simpl; auto; try discriminate. rbool; auto; try discriminate; lra.
  - intros [| | |a] [| | |b] [| | |c]; simpl; auto; try discriminate. rbool; auto; try discriminate; lra.
  - intros [| | |a] [| | |b]; simpl; try discriminate; auto.
Qed.

Lemma x_ofZ : forall z, x_ofZE z 0 = XFin (IZR z).
Proof. intros; unfold x_ofZE; simpl. f_equal; lra. Qed.

Lemma XR_ok : arith_ok XR.
Proof.
  constructor; unfold clean, finite, zero, one, ofZ; simpl; rewrite ?x_ofZ; simpl.
  - apply XR_ord.
  - reflexivity.
  - f_equal; lra.
  - intros a b Ha. destruct a, b; simpl in *; auto; f_equal; lra.
  - intros a z Ha. destruct a, z; simpl; try discriminate; auto. intro H. apply Reqb_eq in H; subst. f_equal; lra.
  - intros z b Hz Hb. destruct z; simpl in *; try discriminate. apply Reqb_eq in Hz; subst.
    destruct b; simpl in *; try discriminate. apply Reqb_eq; lra.
  - intros a b; destruct a, b; simpl; auto; f_equal; lra.
  - intros a b; destruct a, b; simpl; auto; f_equal; lra.
  - intros a; destruct a; simpl; auto; unfold x_inf_times; rbool; simpl; auto; try lra. f_equal; lra.
  - repeat split; rbool; auto; lra.
Qed.

(** * IEEE doubles *)
Definition b2x (x : f64) : xr :=
  match x with
  | B754_nan => XNaN
  | B754_infinity true => XNInf
  | B754_infinity false => XPInf
  | _ => XFin (B2R x)
  end.

Lemma b2x_fin : forall x : f64, is_finite x = true -> b2x x = XFin (B2R x).
Proof. intros [s|s| |s m e H]; simpl; intro E; try discriminate; auto. Qed.

Lemma Bcmp : forall x y : f64, is_finite x = true -> is_finite y = true ->
  SpecFloat.SFcompare (B2SF x) (B2SF y) = Some (Rcompare (B2R x) (B2R y)).
Proof. intros x y Hx Hy. apply (Bcompare_correct 53 1024 x y Hx Hy). Qed.

Lemma f_leb_x : forall x y : f64, f_leb x y = x_leb (b2x x) (b2x y).
Proof.
  intros x y. unfold f_leb, Bleb, SpecFloat.SFleb.
  destruct (is_finite x) eqn:Fx, (is_finite y) eqn:Fy.
  - rewrite Bcmp, !b2x_fin by auto. simpl.
    destruct (Rcompare_spec (B2R x) (B2R y)); rbool; auto; lra.
  - destruct x, y as [sy|[]| |]; simpl in *; try discriminate; auto.
  - destruct x as [sx|[]| |], y; simpl in *; try discriminate; auto.
  - destruct x as [sx|[]| |], y as [sy|[]| |]; simpl in *; try discriminate; auto.
Qed.
Lemma f_ltb_x : forall x y : f64, f_ltb x y = x_ltb (b2x x) (b2x y).
Proof.
  intros x y. unfold f_ltb, Bltb, SpecFloat.SFltb.
  destruct (is_finite x) eqn:Fx, (is_finite y) eqn:Fy.
  - rewrite Bcmp, !b2x_fin by auto. simpl.
    destruct (Rcompare_spec (B2R x) (B2R y)); rbool; auto; lra.
  - destruct x, y as [sy|[]| |]; simpl in *; try discriminate; auto.
  - destruct x as [sx|[]| |], y; simpl in *; try discriminate; auto.
  - destruct x as [sx|[]| |], y as [sy|[]| |]; simpl in *; try discriminate; auto.
Qed.
Lemma f_eqb_x : forall x y : f64, f_eqb x y = x_eqb (b2x x) (b2x y).
Proof.
  intros x y. unfold f_eqb, Beqb, SpecFloat.SFeqb.
  destruct (is_finite x) eqn:Fx, (is_finite y) eqn:Fy.
  - rewrite Bcmp, !b2x_fin by auto. simpl.
    destruct (Rcompare_spec (B2R x) (B2R y)); rbool; auto; lra.
  - destruct x, y as [sy|[]| |]; simpl in *; try discriminate; auto.
  - destruct x as [sx|[]| |], y; simpl in *; try discriminate; auto.
  - destruct x as [sx|[]| |], y as [sy|[]| |]; simpl in *; try discriminate; auto.
Qed.
Lemma f_nan_x : forall x : f64, is_nan x = x_isnan (b2x x).
Proof. intros [s|[]| |s m e H]; reflexivity. Qed.

Lemma F64_ord : forall m, ord_ok (F64 m).
Proof.
  intro m. destruct XR_ord as [n l s et ir tr to ell elr ln]. simpl in *.
  constructor; simpl; intros; rewrite ?f_leb_x, ?f_ltb_x, ?f_eqb_x, ?f_nan_x in *; eauto.
Qed.

Lemma f_zero : f_ofZE 0 0 = B754_zero false.
Proof. reflexivity. Qed.

Lemma f_eqb_zero : forall z : f64, f_eqb z (B754_zero false) = true <-> exists s, z = B754_zero s.
Proof.
  intro z; split.
  - destruct z as [s|[]| |s m e H]; simpl; intro E; try discriminate; eauto.
    + destruct s; discriminate E.
  - intros (s & ->). destruct s; reflexivity.
Qed.

Lemma f_clean_iff : forall a : f64, f_add a (B754_zero false) = a <-> a <> B754_zero true.
Proof.
  intros a; split.
  - intros H ->. discriminate H.
  - intro H. destruct a as [[]|s| |s m e Hb]; try congruence; reflexivity.
Qed.

Lemma f_add_neg0 : forall a b : f64, f_add a b = B754_zero true -> a = B754_zero true.
Proof.
  intros a b H.
  destruct a as [sa|sa| |sa ma ea Ha].
  - destruct b as [sb|sb| |sb mb eb Hb]; simpl in H; try discriminate.
    destruct sa, sb; simpl in H; try discriminate; auto.
  - destruct b as [sb|sb| |sb mb eb Hb]; simpl in H; try discriminate.
    destruct (Bool.eqb sa sb); discriminate.
  - discriminate.
  - destruct b as [sb|sb| |sb mb eb Hb]; try discriminate.
    exfalso. set (x := B754_finite sa ma ea Ha) in *. set (y := B754_finite sb mb eb Hb) in *.
    pose proof (Bplus_correct 53 1024 prec53 emax1024 mode_NE x y eq_refl eq_refl) as C.
    unfold f_add in H. rewrite H in C.
    match type of C with if ?c then _ else _ => destruct c eqn:E end.
    + destruct C as (C1 & _ & C2). simpl in C1.
      assert (S0 : B2R x + B2R y = 0).
      { destruct (Req_dec (B2R x + B2R y) 0) as [|N]; auto. exfalso.
        refine (round_plus_neq_0 radix2 (FLT_exp (3 - 1024 - 53) 53) (round_mode mode_NE) (B2R x) (B2R y) _ _ N _).
        - apply generic_format_B2R.
        - apply generic_format_B2R.
        - symmetry; exact C1. }
      rewrite S0, Rcompare_Eq in C2 by reflexivity. simpl in C2.
      destruct sa, sb; try discriminate C2.
      assert (B2R x < 0) by (apply F2R_lt_0; reflexivity).
      assert (B2R y < 0) by (apply F2R_lt_0; reflexivity). lra.
    + destruct C as (C & _). destruct sa; discriminate C.
Qed.

Lemma f_add_zero_r : forall a s, a <> B754_zero true -> f_add a (B754_zero s) = a.
Proof.
  intros a s H. destruct a as [[]|sa| |sa m e Hb]; try congruence; destruct s; reflexivity.
Qed.

Lemma f_finite_iff : forall a : f64, f_eqb (f_sub a a) (B754_zero false) = true <-> is_finite a = true.
Proof.
  intros a; split.
  - destruct a as [s|[]| |s m e H]; auto; discriminate.
  - intro F. pose proof (Bminus_correct 53 1024 prec53 emax1024 mode_NE a a F F) as C.
    rewrite Rminus_diag_eq, round_0 in C by (auto; apply valid_rnd_round_mode).
    rewrite Rabs_R0, Rlt_bool_true in C by apply bpow_gt_0.
    destruct C as (C1 & C2 & _). change (Bminus mode_NE a a) with (f_sub a a) in *.
    rewrite f_eqb_x, b2x_fin by auto. rewrite C1. simpl. apply Reqb_eq; auto.
Qed.

Lemma f_mul_comm : forall a b : f64, f_mul a b = f_mul b a.
Proof.
  intros a b. destruct a as [sa|sa| |sa ma ea Ha], b as [sb|sb| |sb mb eb Hb]; simpl; auto;
    try (rewrite xorb_comm; reflexivity).
  unfold f_mul, Bmult.
  apply B2SF_inj. rewrite !B2SF_SF2B. rewrite xorb_comm, Pos.mul_comm, Z.add_comm. reflexivity.
Qed.

Lemma f_add_comm : forall a b : f64, f_add a b = f_add b a.
Proof.
  intros a b. destruct a as [sa|sa| |sa ma ea Ha], b as [sb|sb| |sb mb eb Hb]; simpl; auto;
    try (destruct sa, sb; reflexivity).
  unfold f_add, Bplus. 
  rewrite Z.min_comm.
  match goal with |- binary_normalize _ _ _ _ _ ?x _ _ = binary_normalize _ _ _ _ _ ?y _ _ => replace y with x; [reflexivity|] end.
  unfold Fplus_naive. apply Z.add_comm.
Qed.

Lemma fin_nan : forall x : f64, is_finite x = true -> is_nan x = false.
Proof. intros [s|s| |s m e H]; auto; discriminate. Qed.

Lemma f_one : exists m e H, f_ofZE 1 0 = B754_finite false m e H /\ B2R (B754_finite false m e H) = 1.
Proof.
  pose proof (binary_normalize_correct 53 1024 prec53 emax1024 mode_NE 1 0 false) as C.
  fold (f_ofZE 1 0) in C.
  assert (F : F2R (Float radix2 1 0) = 1) by (unfold F2R; simpl; lra).
  cbv zeta in C; rewrite F in C. rewrite round_generic in C; [|apply valid_rnd_round_mode|].
  - rewrite Rabs_R1, Rlt_bool_true in C by (apply (bpow_lt radix2 0); reflexivity).
    destruct C as (C1 & C2 & C3). rewrite Rcompare_Gt in C3 by lra.
    destruct (f_ofZE 1 0) as [s|s| |s m e H]; try discriminate C2.
    + simpl in C1; lra.
    + simpl in C3; subst s. exists m, e, H; split; auto.
  - apply (generic_format_bpow radix2 _ 0). unfold SpecFloat.fexp, SpecFloat.emin, FLT_exp. lia.
Qed.

Lemma f_mul_one : forall a : f64, f_mul a (f_ofZE 1 0) = a.
Proof.
  intros a. destruct f_one as (m & e & H & E & R1). rewrite E.
  destruct a as [s|s| |s ma ea Ha]; try (simpl; rewrite ?xorb_false_r; reflexivity).
  pose proof (Bmult_correct 53 1024 prec53 emax1024 mode_NE (B754_finite s ma ea Ha) (B754_finite false m e H)) as C.
  rewrite R1, Rmult_1_r in C.
  rewrite round_generic in C; [|apply valid_rnd_round_mode|apply generic_format_B2R].
  rewrite Rlt_bool_true in C by apply abs_B2R_lt_emax.
  destruct C as (C1 & C2 & C3). 
  simpl is_finite in C2. 
  apply B2R_Bsign_inj; auto.
  unfold f_mul. rewrite C3.
  - simpl. rewrite xorb_false_r; reflexivity.
  - apply fin_nan; exact C2.
Qed.

Lemma F64_ok : forall m, arith_ok (F64 m).
Proof.
  intro m. constructor; unfold clean, finite, zero, one, ofZ; simpl.
  - apply F64_ord.
  - reflexivity.
  - reflexivity.
  - intros a b Ha. rewrite f_clean_iff in *. intro H. apply Ha. eapply f_add_neg0; eauto.
  - intros a z Ha Hz. rewrite f_clean_iff in Ha. apply f_eqb_zero in Hz. destruct Hz as (s & ->).
    apply f_add_zero_r; auto.
  - intros z b Hz Hb. apply f_eqb_zero in Hz. destruct Hz as (s & ->).
    apply f_finite_iff in Hb. apply f_eqb_zero. destruct b; simpl in *; try discriminate; eauto.
  - apply f_mul_comm.
  - apply f_add_comm.
  - apply f_mul_one.
  - repeat split; reflexivity.
Qed.
