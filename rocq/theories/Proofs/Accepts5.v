(** Double arithmetic never raises where the accepted inputs go. *)
From Coq Require Import Reals Lra Lia ZArith Bool.
From Flocq Require Import Core BinarySingleNaN.
From Verif Require Import Model.Py Model.Arith Model.F64 Model.XR Model.Utils Model.Base Model.Ensemble Model.Encoders.
From Verif Require Import Spec.Libm Proofs.Lib Proofs.Laws Proofs.Round Proofs.Unit Proofs.Arrays2 Proofs.Encode Proofs.Accepts.

Definition not_below (x : xr) : Prop := x_ltb x (XFin 0) = false.
Lemma fround_ge0 : forall r, (0 <= r)%R -> x_leb (XFin 0) (fround r) = true.
Proof. intros r H. rewrite <- fround_0. apply fround_mono. auto. Qed.
Lemma ge0_not_below : forall x, x_leb (XFin 0) x = true -> not_below x.
Proof. intros [| | |r] H; try discriminate; [reflexivity|]. simpl in H. apply Rleb_le in H. unfold not_below. simpl. apply Rltb_ge. auto. Qed.
Lemma not_below_sqr : forall x : f64, not_below (b2x (f_mul x x)).
Proof. intro x. rewrite f_mul_x. destruct (b2x x) as [| | |r]; try reflexivity. simpl. apply ge0_not_below, fround_ge0. nra. Qed.
Lemma not_below_add : forall a b : f64, not_below (b2x a) -> not_below (b2x b) -> not_below (b2x (f_add a b)).
Proof.
  intros a b Ha Hb. rewrite f_add_x. destruct (b2x a) as [| | |ra], (b2x b) as [| | |rb]; try reflexivity; try discriminate. unfold not_below in Ha, Hb. simpl in *. apply Rltb_ge in Ha, Hb. apply ge0_not_below, fround_ge0. lra.
Qed.
Lemma not_below_sum : forall l (acc : f64), not_below (b2x acc) -> Forall (fun x => not_below (b2x x)) l -> not_below (b2x (fold_left f_add l acc)).
Proof. induction l as [|x l IH]; intros acc H F; auto. inversion F; subst. cbn [fold_left]. apply IH; auto. apply not_below_add; auto. Qed.
Lemma not_below_sqrt : forall x : f64, not_below (b2x x) -> exists y, f_sqrt x = Ok y.
Proof.
  intros x H. pose proof (f_sqrt_x x) as Q. destruct (f_sqrt x) as [y|e]; [eauto|]. exfalso. simpl in Q. destruct (b2x x) as [| | |r]; try discriminate. simpl in Q. unfold not_below in H. simpl in H. rewrite H in Q. discriminate.
Qed.
Lemma f_odds : forall v : f64, f_eqb (f_sub (f_ofZE 1 0) (if f_ltb v (f_ofZE 4503599644147965 (-75)) then f_ofZE 4503599644147965 (-75) else if f_ltb (f_sub (f_ofZE 1 0) (f_ofZE 4503599644147965 (-75))) v then f_sub (f_ofZE 1 0) (f_ofZE 4503599644147965 (-75)) else v)) (f_ofZE 0 0) = false.
Proof.
  intro v. set (E := f_ofZE 4503599644147965 (-75)). set (c := f_sub (f_ofZE 1 0) E).
  assert (B1 : f_eqb (f_sub (f_ofZE 1 0) E) (f_ofZE 0 0) = false) by (vm_compute; reflexivity).
  assert (B2 : f_ltb (f_ofZE 0 0) (f_sub (f_ofZE 1 0) c) = true) by (vm_compute; reflexivity).
  assert (B3 : is_finite c = true) by (vm_compute; reflexivity).
  assert (B4 : f_ltb (f_ofZE 0 0) E = true) by (vm_compute; reflexivity).
  assert (B5 : is_finite E = true) by (vm_compute; reflexivity).
  destruct (f_ltb v E) eqn:L1; [exact B1|]. destruct (f_ltb c v) eqn:L2.
  - rewrite f_ltb_x in B2. rewrite f_eqb_x. clearbody c. destruct (b2x (f_sub (f_ofZE 1 0) c)) as [| | |r]; try discriminate; auto; rewrite b2x_zero in *; simpl in *; auto. apply Rltb_lt in B2. apply Reqb_neq. lra.
  - rewrite f_ltb_x in L1, L2, B2. rewrite f_eqb_x, f_sub_x. rewrite f_sub_x in B2. rewrite b2x_one, b2x_zero in *. rewrite (b2x_fin c B3) in *. rewrite (b2x_fin E B5) in *. generalize dependent (B2R c). intros rc. intros.
    destruct (b2x v) as [| | |r]; try discriminate; auto. simpl in L1, L2, B2 |- *. apply Rltb_ge in L2.
    pose proof (fround_mono (1 - rc) (1 - r) ltac:(lra)) as G. unfold Rminus in *. destruct (fround (1 + - rc)) as [| | |a], (fround (1 + - r)) as [| | |b]; try discriminate; auto.
    simpl in *. apply Rltb_lt in B2. apply Rleb_le in G. apply Reqb_neq. lra.
Qed.
Lemma f_count : forall z, (1 <= z)%Z -> f_eqb (f_ofZE z 0) (f_ofZE 0 0) = false.
Proof.
  intros z H. rewrite f_eqb_x, b2x_zero, f_ofZE_x. pose proof b2x_one as O. rewrite f_ofZE_x in O.
  pose proof (fround_mono (F2R (Float radix2 1 0)) (F2R (Float radix2 z 0)) ltac:(apply F2R_le; auto)) as G. rewrite O in G.
  destruct (fround (F2R (Float radix2 z 0))) as [| | |r]; auto. simpl in *. apply Rleb_le in G. apply Reqb_neq. lra.
Qed.
Lemma f_expit : forall m, exp_nonneg m -> forall x : F64 m, exists y, expit x = Ok y.
Proof.
  intros m HE x. destruct (isnan x) eqn:N; [|destruct (expit_unit m HE x N) as (p & E & _); eauto].
  unfold expit. assert (EN : opp x = nanv) by (cbn in N; destruct x; try discriminate; reflexivity). rewrite EN. exists nanv. reflexivity.
Qed.
Lemma F64_total : forall m, exp_nonneg m -> total_arith (F64 m).
Proof.
  intros m HE. split.
  - apply F64_ord.
  - intros x y H. apply (u_div_ok _ (F64_unit m)). exact H.
  - exact (f_count 1 ltac:(lia)).
  - intro l. unfold psum. apply not_below_sqrt. apply not_below_sum; [unfold not_below; f64; rewrite b2x_zero; simpl; apply Rltb_ge; lra|]. apply Forall_forall. intros y Hy. apply in_map_iff in Hy. destruct Hy as (x & <- & _). apply not_below_sqr.
  - intros [| |]; [reflexivity| |reflexivity]. unfold conv. change (toZ (one : F64 m)) with (f_toZ (f_ofZE 1 0)). rewrite f_trunc by lia. reflexivity.
  - exact (proj2 (f_eqb_zero _) (ex_intro _ false f_zero)).
  - apply safe_exp_total.
  - intro x. unfold safe_log. destruct (eqb x zero) eqn:E0; [eauto|]. destruct (ltb x zero) eqn:E1; [eauto|]. cbn [logv F64]. unfold f_log. destruct x as [s|[]| |[] mx ex H]; eauto.
    + destruct s; discriminate E0.
    + discriminate E1.
    + discriminate E1.
  - apply f_expit; auto.
  - exact f_odds.
  - intros n Hn. exact (f_count (Z.of_nat n) ltac:(lia)).
Qed.
