(** Monotonicity of addition and division into [0,1], for both number systems. *)
From Coq Require Import Reals Lra ZArith Bool.
From Flocq Require Import Core BinarySingleNaN.
From Verif Require Import Model.Py Model.Arith Model.F64 Model.XR Proofs.Lib Proofs.Laws Proofs.Round.
Local Open Scope R_scope.

Record unit_ok (A : arith) : Prop := {
  u_ok :> arith_ok A;
  u_add_mono : forall a a' b b' : A, leb a a' = true -> leb b b' = true ->
     isnan (add a b) = false -> isnan (add a' b') = false -> leb (add a b) (add a' b') = true;
  u_add_pos_nan : forall a b : A, leb zero a = true -> leb zero b = true -> isnan (add a b) = false;
  u_add_0_l : forall b : A, eqb (add zero b) b = negb (isnan b);
  u_div_err : forall a b : A, eqb b zero = true -> div a b = Err ZeroDivisionError;
  u_div_ok : forall a b : A, eqb b zero = false -> exists q, div a b = Ok q;
  u_div_unit : forall a b : A, leb zero a = true -> leb a b = true -> finite b -> ltb zero b = true ->
     exists q, div a b = Ok q /\ leb zero q = true /\ leb q one = true;
  u_fin_le : forall a b : A, leb zero a = true -> leb a b = true -> finite b -> finite a;
  u_nat_succ : forall n, (Z.of_nat n < 2 ^ 53)%Z -> eqb (add (ofnat n) one : A) (ofnat (S n)) = true;
  u_nat : forall n, (Z.of_nat n <= 2 ^ 53)%Z -> finite (ofnat n : A) /\ leb (zero : A) (ofnat n) = true /\ (0 < n -> ltb (zero : A) (ofnat n) = true)%nat;
}.

Local Arguments x_ofZE : simpl never.

Lemma XR_unit : unit_ok XR.
Proof.
  constructor; unfold finite, zero, one, ofnat, ofZ; cbn [num XR ofZE add sub mul div leb ltb eqb isnan].
  - apply XR_ok.
  - intros [| | |a] [| | |a'] [| | |b] [| | |b']; simpl; intros; try discriminate; auto.
    apply Rleb_le in H, H0. apply Rleb_le. lra.
  - rewrite x_ofZ. intros [| | |a] [| | |b]; simpl; intros; try discriminate; auto.
  - rewrite x_ofZ. intros [| | |b]; simpl; auto. apply Reqb_eq; lra.
  - rewrite x_ofZ. intros a [| | |b]; simpl; try discriminate. intro H. destruct a; unfold x_div; rewrite H; auto.
  - rewrite x_ofZ. intros [| | |a] [| | |b]; cbn [x_eqb]; intros; try discriminate; unfold x_div; try rewrite H; eauto.
  - rewrite !x_ofZ. intros [| | |a] [| | |b]; simpl; intros; try discriminate.
    apply Rleb_le in H, H0. apply Rltb_lt in H2.
    replace (Reqb b 0) with false by (symmetry; apply Reqb_neq; lra).
    eexists; split; [reflexivity|]. simpl. rewrite !Rleb_le. unfold Rdiv.
    assert (0 < / b) by (apply Rinv_0_lt_compat; auto). split.
    + apply Rmult_le_pos; lra.
    + apply Rmult_le_reg_r with b; auto. rewrite Rmult_assoc, Rinv_l by lra. lra.
  - rewrite !x_ofZ. intros [| | |a] [| | |b]; simpl; intros; try discriminate. apply Reqb_eq. lra.
  - intros n _. rewrite !x_ofZ. cbn [x_add x_eqb]. apply Reqb_eq. rewrite <- plus_IZR. f_equal. lia.
  - intros n _. rewrite !x_ofZ. simpl. repeat split.
    + apply Reqb_eq. lra.
    + apply Rleb_le. apply IZR_le. lia.
    + intro. apply Rltb_lt. apply IZR_lt. lia.
Qed.

Lemma x_leb_refl : forall x, x_isnan x = false -> x_leb x x = true.
Proof. intros [| | |a]; simpl; intros; try discriminate; auto. apply Rleb_le; lra. Qed.
Lemma x_leb_trans : forall x y z, x_leb x y = true -> x_leb y z = true -> x_leb x z = true.
Proof.
  intros [| | |a] [| | |b] [| | |c]; simpl; intros; try discriminate; auto.
  apply Rleb_le in H, H0. apply Rleb_le. lra.
Qed.
Lemma x_leb_nan : forall x y, x_leb x y = true -> x_isnan x = false /\ x_isnan y = false.
Proof. intros [| | |a] [| | |b]; simpl; intros; try discriminate; auto. Qed.

Lemma b2x_zero : b2x (f_ofZE 0 0) = XFin 0. Proof. reflexivity. Qed.
Lemma b2x_one : b2x (f_ofZE 1 0) = XFin 1.
Proof. rewrite f_ofZ_x by lia. reflexivity. Qed.

Lemma f_fin_iff : forall (b : f64), f_eqb (f_sub b b) (f_ofZE 0 0) = true <-> exists r, b2x b = XFin r.
Proof.
  intros b. change (f_ofZE 0 0) with (B754_zero false : f64). rewrite f_finite_iff. split.
  - intro. rewrite b2x_fin; eauto.
  - intros [r E]. destruct b as [|[]| |]; auto; discriminate.
Qed.

Lemma fround_le : forall r (b : f64), r <= B2R b -> x_leb (fround r) (XFin (B2R b)) = true.
Proof. intros r b H. rewrite <- (fround_B2R b). apply fround_mono; auto. Qed.

Lemma F64_unit : forall m, unit_ok (F64 m).
Proof.
  intro m. destruct XR_unit as [OK am an a0 de dok du fl ns nn].
  unfold finite, zero, one, ofnat, ofZ in *; cbn [num XR ofZE add sub mul div leb ltb eqb isnan] in *.
  constructor; unfold finite, zero, one, ofnat, ofZ; cbn [num F64 ofZE add sub mul div leb ltb eqb isnan].
  - apply F64_ok.
  - intros a a' b b'. rewrite !f_leb_x, !f_nan_x, !f_add_x, !xround_nan. intros. apply xround_mono. auto.
  - intros a b. rewrite !f_leb_x, f_nan_x, f_add_x, xround_nan, b2x_zero. rewrite x_ofZ in an. apply an.
  - intros b. rewrite f_eqb_x, f_nan_x, f_add_x, b2x_zero. destruct (is_nan b) eqn:N.
    + destruct b; try discriminate. reflexivity.
    + destruct (is_finite b) eqn:F.
      * rewrite b2x_fin by auto. simpl. rewrite Rplus_0_l, fround_B2R. simpl. rewrite (proj2 (Reqb_eq _ _)); auto.
      * destruct b as [|[]| |]; try discriminate; reflexivity.
  - intros a b H. apply f_eqb_zero in H. destruct H as [s ->]. reflexivity.
  - intros a b H. destruct b; simpl; eauto. destruct s; discriminate.
  - intros a b H1 H2 H3 H4. rewrite f_leb_x in H1, H2. rewrite f_ltb_x in H4. rewrite b2x_zero in *.
    apply f_fin_iff in H3. destruct H3 as [rb Eb]. rewrite x_ofZ in du.
    assert (Fb : x_eqb (x_sub (b2x b) (b2x b)) (XFin 0) = true) by (rewrite Eb; simpl; apply Reqb_eq; lra).
    rewrite x_ofZ in du.
    destruct (du _ _ H1 H2 Fb H4) as (q & Eq & Q0 & Q1).
    pose proof (f_div_x a b) as D. rewrite Eq in D. simpl in D.
    destruct (f_div a b) as [q'|]; simpl in D; [|discriminate]. injection D as D.
    exists q'. split; auto. rewrite !f_leb_x, D, b2x_zero, b2x_one. split.
    + change (XFin 0) with (b2x (B754_zero false)). rewrite <- (xround_b2x (B754_zero false)). apply xround_mono. auto.
    + rewrite <- b2x_one. rewrite <- (xround_b2x (f_ofZE 1 0)). apply xround_mono. rewrite b2x_one. auto.
  - intros a b. rewrite !f_leb_x, b2x_zero, !f_fin_iff. intros H1 H2 [r E]. rewrite E in H2.
    destruct (b2x a); try discriminate. eauto.
  - intros n Hn. rewrite f_eqb_x, f_add_x, b2x_one, !f_ofZ_x by lia. simpl.
    rewrite <- plus_IZR, fround_IZR by lia. simpl. apply Reqb_eq. f_equal. lia.
  - intros n Hn. rewrite f_fin_iff, f_leb_x, f_ltb_x, b2x_zero, f_ofZ_x by lia. simpl. repeat split; eauto.
    + apply Rleb_le. apply IZR_le. lia.
    + intro. apply Rltb_lt. apply IZR_lt. lia.
Qed.

(** Consequences, for any such arithmetic. *)
Section Gen.
  Context {A : arith} (OK : ord_ok A).

  Lemma leb_refl : forall a : A, isnan a = false -> leb a a = true.
  Proof.
    intros a H. rewrite (o_leb _ OK). rewrite (o_nan _ OK) in H. apply negb_false_iff in H. rewrite H.
    apply orb_true_r.
  Qed.
  Lemma leb_nan : forall a b : A, leb a b = true -> isnan a = false /\ isnan b = false.
  Proof.
    intros a b H. rewrite (o_leb _ OK) in H. apply orb_true_iff in H. destruct H as [H|H].
    - apply (o_lt_nan _ OK); auto.
    - rewrite !(o_nan _ OK). split; apply negb_false_iff.
      + apply (o_eq_trans _ OK) with b; auto. rewrite (o_sym _ OK); auto.
      + apply (o_eq_trans _ OK) with a; auto. rewrite (o_sym _ OK); auto.
  Qed.
  Lemma leb_trans : forall a b c : A, leb a b = true -> leb b c = true -> leb a c = true.
  Proof.
    intros a b c H1 H2. rewrite (o_leb _ OK) in *. apply orb_true_iff in H1, H2. apply orb_true_iff.
    destruct H1 as [H1|H1], H2 as [H2|H2].
    - left. eapply (o_trans _ OK); eauto.
    - left. rewrite <- (o_eq_lt_r _ OK b c a); auto.
    - left. rewrite (o_eq_lt_l _ OK a b c); auto.
    - right. eapply (o_eq_trans _ OK); eauto.
  Qed.
  Lemma leb_ltb_trans : forall a b c : A, leb a b = true -> ltb b c = true -> ltb a c = true.
  Proof.
    intros a b c H1 H2. rewrite (o_leb _ OK) in *. apply orb_true_iff in H1.
    destruct H1 as [H1|H1]; [eapply (o_trans _ OK); eauto|].
    rewrite (o_eq_lt_l _ OK a b c); auto.
  Qed.
  Lemma ltb_leb_trans : forall a b c : A, ltb a b = true -> leb b c = true -> ltb a c = true.
  Proof.
    intros a b c H1 H2. rewrite (o_leb _ OK) in *. apply orb_true_iff in H2.
    destruct H2 as [H2|H2]; [eapply (o_trans _ OK); eauto|].
    rewrite <- (o_eq_lt_r _ OK b c a); auto.
  Qed.
  Lemma ltb_leb : forall a b : A, ltb a b = true -> leb a b = true.
  Proof. intros a b H. rewrite (o_leb _ OK), H. auto. Qed.
  Lemma nltb_leb : forall a b : A, isnan a = false -> isnan b = false -> ltb a b = false -> leb b a = true.
  Proof.
    intros a b Na Nb H. rewrite (o_leb _ OK).
    destruct (o_total _ OK a b Na Nb) as [E|[E|E]]; [congruence| |rewrite E; auto].
    rewrite (o_sym _ OK b a), E. apply orb_true_r.
  Qed.
  Lemma leb_nltb : forall a b : A, leb a b = true -> ltb b a = false.
  Proof.
    intros a b H. destruct (ltb b a) eqn:E; auto.
    pose proof (ltb_leb_trans _ _ _ E H) as F. rewrite (o_irr _ OK) in F. discriminate.
  Qed.
  Lemma leb_antisym : forall a b : A, leb a b = true -> leb b a = true -> eqb a b = true.
  Proof.
    intros a b H1 H2. rewrite (o_leb _ OK) in H1. apply orb_true_iff in H1. destruct H1 as [H1|]; auto.
    rewrite (leb_nltb _ _ H2) in H1. discriminate.
  Qed.
  Lemma eqb_leb : forall a b : A, eqb a b = true -> leb a b = true.
  Proof. intros a b H. rewrite (o_leb _ OK), H. apply orb_true_r. Qed.
  Lemma nltb_trans : forall a b c : A, isnan b = false -> ltb a b = false -> ltb b c = false -> ltb a c = false.
  Proof.
    intros a b c Nb H1 H2. destruct (ltb a c) eqn:E; auto.
    destruct (o_lt_nan _ OK _ _ E) as [Na Nc].
    pose proof (nltb_leb _ _ Na Nb H1) as L1. pose proof (nltb_leb _ _ Nb Nc H2) as L2.
    pose proof (leb_trans _ _ _ L2 L1) as L3. rewrite (leb_nltb _ _ L3) in E. discriminate.
  Qed.
End Gen.

Section Sum.
  Context {A : arith} (U : unit_ok A).
  Local Notation OK := (a_ord _ (u_ok _ U)).

  Lemma add_ge : forall a b : A, leb zero a = true -> leb zero b = true ->
    leb a (add a b) = true /\ leb b (add a b) = true /\ leb zero (add a b) = true.
  Proof.
    intros a b Ha Hb.
    assert (Na : isnan a = false) by (apply (leb_nan OK _ _ Ha)).
    assert (Nb : isnan b = false) by (apply (leb_nan OK _ _ Hb)).
    pose proof (u_add_pos_nan _ U a b Ha Hb) as N.
    assert (Z : leb (zero : A) zero = true) by (apply (leb_refl OK), (a_zero _ U)).
    assert (E1 : eqb (add zero b) b = true) by (rewrite (u_add_0_l _ U), Nb; auto).
    assert (E2 : eqb (add zero a) a = true) by (rewrite (u_add_0_l _ U), Na; auto).
    assert (L2 : leb b (add a b) = true).
    { apply (leb_trans OK) with (add zero b). 
      - apply (eqb_leb OK). rewrite (o_sym _ OK). auto.
      - apply (u_add_mono _ U); auto. apply (leb_refl OK); auto. apply (u_add_pos_nan _ U); auto. }
    assert (L1 : leb a (add a b) = true).
    { rewrite (a_add_comm _ U). apply (leb_trans OK) with (add zero a). 
      - apply (eqb_leb OK). rewrite (o_sym _ OK). auto.
      - apply (u_add_mono _ U); auto. apply (leb_refl OK); auto. apply (u_add_pos_nan _ U); auto.
        rewrite (a_add_comm _ U). auto. }
    repeat split; auto. exact (leb_trans OK _ _ _ Ha L1).
  Qed.

  Lemma psum_acc_ge : forall (l : list A) acc, leb zero acc = true -> Forall (fun x => leb zero x = true) l ->
    leb acc (fold_left add l acc) = true /\ (forall x, In x l -> leb x (fold_left add l acc) = true).
  Proof.
    induction l as [|x l IH]; intros acc Ha HF; simpl.
    - split; [apply (leb_refl OK); apply (leb_nan OK _ _ Ha)|intros x []].
    - inversion HF; subst. destruct (add_ge acc x) as (G1 & G2 & G3); auto.
      destruct (IH (add acc x)) as [I1 I2]; auto. split.
      + eapply (leb_trans OK); eauto.
      + intros y [<-|Hy]; auto. eapply (leb_trans OK); eauto.
  Qed.

  Lemma zero_le_zero : leb (zero : A) zero = true.
  Proof. apply (leb_refl OK), (a_zero _ U). Qed.

  (** Every term of a sum of non-negative numbers is at most the sum. *)
  Lemma psum_ge : forall (l : list A), Forall (fun x => leb zero x = true) l ->
    leb zero (psum l) = true /\ (forall x, In x l -> leb x (psum l) = true).
  Proof. intros l H. apply psum_acc_ge; auto. apply zero_le_zero. Qed.

  (** Dividing non-negative numbers by their (finite, non-zero) sum. *)
  Lemma normalised_unit : forall (l : list A), Forall (fun x => leb zero x = true) l ->
    finite (psum l) -> eqb (psum l) zero = false ->
    exists q, mapM (fun v => div v (psum l)) l = Ok q /\ length q = length l /\
      Forall (fun p => leb zero p = true /\ leb p one = true) q.
  Proof.
    intros l HF Fin NZ. destruct (psum_ge l HF) as [G0 G].
    assert (P : ltb zero (psum l) = true).
    { rewrite (o_leb _ OK) in G0. apply orb_true_iff in G0. destruct G0 as [|E]; auto.
      rewrite (o_sym _ OK), NZ in E. discriminate. }
    rewrite Forall_forall in HF.
    destruct (mapM_total (fun v => div v (psum l)) l) as [q Eq].
    { intros x Hx. destruct (u_div_ok _ U x (psum l) NZ) as [y E]; eauto. }
    exists q. split; auto. split; [eapply mapM_length; eauto|].
    apply Forall_forall. intros p Hp. destruct (mapM_in _ _ _ _ Eq Hp) as (x & Hx & E).
    destruct (u_div_unit _ U x (psum l) (HF _ Hx) (G _ Hx) Fin P) as (q' & E' & Q).
    congruence.
  Qed.
End Sum.

(** Expose the double operations behind the number record. *)
Ltac f64 := unfold zero, one, ofnat, ofZ in *;
  cbn [num F64 ofZE add sub mul opp absv div leb ltb eqb isnan] in *.
#[global] Arguments f_ofZE : simpl never.
#[global] Arguments f_add : simpl never.
#[global] Arguments f_sub : simpl never.
#[global] Arguments f_mul : simpl never.
#[global] Arguments x_ofZE : simpl never.
