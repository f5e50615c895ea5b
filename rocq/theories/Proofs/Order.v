(** Rounded arithmetic does not reverse the order of numbers. *)
From Coq Require Import String Reals Lia Lra.
From Flocq Require Import Core BinarySingleNaN.
From Verif Require Import Model.Py Model.Arith Model.F64 Model.XR Model.Utils Model.Base Model.Linear Model.NaiveBayes.
From Verif Require Import Spec.Matrix Spec.Ensembles Spec.Reals Spec.Libm Spec.Linear Spec.Order.
From Verif Require Import Proofs.Lib Proofs.Laws Proofs.Round Proofs.Unit Proofs.Arrays Proofs.Arrays2 Proofs.CRLibm Proofs.RealLib
  Proofs.Argmax Proofs.Ensemble Proofs.Boosting Proofs.Linear Proofs.LinearProba.
Local Open Scope R_scope.

Section F.
  Variable m : libm.
  Hypothesis HE : exp_nonneg m.
  Hypothesis HM : exp_monotone m.

  Lemma opp_anti : forall x y : F64 m, leb x y = true -> leb (opp y) (opp x) = true.
  Proof.
    intros x y H. f64. rewrite f_leb_x in *. rewrite !b2x_opp. destruct (b2x x), (b2x y); try discriminate; auto.
    simpl in *. apply Rleb_le in H. apply Rleb_le. lra.
  Qed.
  Lemma expit_up : forall x y p q : F64 m, leb x y = true -> expit x = Ok p -> expit y = Ok q -> leb p q = true.
  Proof.
    intros x y p q H. unfold expit. intros Ep Eq. inv_bind Ep. inv_bind Eq. pose proof (opp_anti _ _ H) as H'.
    pose proof (leb_nan (F64_ord m) _ _ H') as [Ny Nx].
    eapply (div1_mono m); [| |exact Eq|exact Ep].
    - eapply (safe_exp_ge0 m HE (opp y)); eauto.
    - eapply (safe_exp_mono' m HE HM); eauto.
  Qed.
  Lemma one_minus_anti : forall x y : F64 m, leb x y = true -> leb (sub one y) (sub one x) = true.
  Proof.
    intros x y H. f64. rewrite f_leb_x in *. rewrite !f_sub_x, b2x_one. apply xround_mono. unfold x_sub.
    destruct (b2x x), (b2x y); try discriminate; auto. simpl in *. apply Rleb_le in H. apply Rleb_le. lra.
  Qed.

  Lemma nan_x : forall x : F64 m, isnan x = x_isnan (b2x x).
  Proof. intro x. exact (f_nan_x x). Qed.

  (** Dividing by a number that is positive, infinite or NaN. *)
  Lemma div_keeps : forall s a b p q : F64 m, leb zero s = true \/ isnan s = true -> leb a b = true ->
    div a s = Ok p -> div b s = Ok q -> isnan p = false -> isnan q = false -> leb p q = true.
  Proof.
    intros s a b p q Hs H D D' Np Nq. rewrite nan_x in Hs, Np, Nq. f64. rewrite f_leb_x in *. rewrite b2x_zero in Hs.
    pose proof (f_div_x a s) as Q. pose proof (f_div_x b s) as Q'. rewrite D in Q. rewrite D' in Q'.
    destruct (b2x s) as [| | |r].
    - destruct (b2x a); simpl in Q; injection Q as Q; rewrite Q in Np; discriminate.
    - destruct (b2x a) as [| | |u], (b2x b) as [| | |v]; simpl in *; try discriminate; injection Q as Q; injection Q' as Q'; rewrite Q, Q' in *; try discriminate.
      apply xround_mono with (x := XFin 0) (y := XFin 0). apply Rleb_le. lra.
    - destruct Hs; discriminate.
    - destruct Hs as [Hs|Hs]; [|discriminate]. simpl in Hs. apply Rleb_le in Hs. destruct Hs as [Hs|Hs].
      + destruct (x_div_mono r _ _ Hs H) as (x & y & E & E' & L). rewrite E in Q. rewrite E' in Q'. simpl in Q, Q'.
        injection Q as ->. injection Q' as ->. apply xround_mono. auto.
      + exfalso. subst r. destruct (b2x a); simpl in Q; try discriminate; rewrite (proj2 (Reqb_eq 0 0) eq_refl) in Q; discriminate.
  Qed.

  Definition nn (x : F64 m) : Prop := leb zero x = true \/ isnan x = true.
  Lemma nn_add : forall x y : F64 m, nn x -> nn y -> nn (add x y).
  Proof.
    unfold nn. intros x y Hx Hy. rewrite nan_x in *. f64. rewrite !f_leb_x, b2x_zero in *. rewrite f_add_x, xround_nan.
    destruct (b2x x) as [| | |a], (b2x y) as [| | |b]; simpl in *; try (destruct Hx; discriminate); try (destruct Hy; discriminate); auto.
    left. destruct Hx as [Hx|]; [|discriminate]. destruct Hy as [Hy|]; [|discriminate]. apply Rleb_le in Hx, Hy.
    pose proof (fround_mono 0 (a + b) ltac:(lra)) as Q. rewrite fround_0 in Q. exact Q.
  Qed.
  Lemma nn_psum : forall l : list (F64 m), Forall nn l -> nn (psum l).
  Proof.
    intros l H. unfold psum. assert (Z : nn (zero : F64 m)) by (left; reflexivity). revert Z. generalize (zero : F64 m). induction H; intros z Z; cbn [fold_left]; auto. apply IHForall. apply nn_add; auto.
  Qed.
  Lemma nn_exp : forall x y : F64 m, safe_exp x = Ok y -> nn y.
  Proof.
    intros x y E. destruct (isnan x) eqn:N; [|left; eapply (safe_exp_ge0 m HE); eauto].
    right. destruct x as [|[]| |]; try discriminate N. injection E as <-. reflexivity.
  Qed.
  Lemma nn_expit : forall x y : F64 m, expit x = Ok y -> nn y.
  Proof.
    intros x y E. destruct (isnan x) eqn:N.
    - right. destruct x as [|[]| |]; try discriminate N. unfold expit in E. inv_bind E. injection E0 as <-. injection E as <-. reflexivity.
    - destruct (expit_unit m HE x N) as (p & Ep & P0 & _). rewrite Ep in E. injection E as <-. left. exact P0.
  Qed.

  (** Images of the scores, divided by their sum. *)
  Lemma quotients : forall (f : F64 m -> res (F64 m)) (s e p : list (F64 m)),
    (forall x y, f x = Ok y -> nn y) -> (forall x y a b, leb x y = true -> f x = Ok a -> f y = Ok b -> leb a b = true) ->
    mapM f s = Ok e -> mapM (fun v => div v (psum e)) e = Ok p -> ordered_as s p.
  Proof.
    intros f s e p N Mo E D. apply mapM_Forall2 in E, D.
    assert (S : nn (psum e)). { apply nn_psum. clear D. induction E; constructor; eauto. }
    split; [rewrite <- (Forall2_len _ _ _ D); symmetry; apply (Forall2_len _ _ _ E)|].
    intros j k x y u w Hx Hy L Hu Hw Nu Nw.
    destruct (proj1 (Forall2_nth_error _ _ _) E) as [LE FE]. destruct (proj1 (Forall2_nth_error _ _ _) D) as [LD FD].
    destruct (nth_error_len _ _ _ _ (eq_sym LE) Hx) as [a Ha]. destruct (nth_error_len _ _ _ _ (eq_sym LE) Hy) as [b Hb].
    apply (div_keeps (psum e) a b); auto; try (eapply FD; eauto). eapply Mo; [exact L| |]; eapply FE; eauto.
  Qed.
  Lemma sfmax_ordered : forall s p : list (F64 m), sfmax s = Ok p -> ordered_as s p.
  Proof.
    intros s p E. unfold sfmax in E. inv_bind E. eapply quotients; [| |exact E0|exact E].
    - apply nn_exp.
    - intros. eapply (safe_exp_mono' m HE HM); eauto.
  Qed.
  Lemma normalise_ordered : forall s e p : list (F64 m), mapM expit s = Ok e -> normalise e = Ok p -> ordered_as s p.
  Proof.
    intros s e p E D. destruct (eqb (psum e) zero) eqn:Z.
    - rewrite (normalise_z m) in D by auto. injection D as <-. split; [rewrite map_length; symmetry; eapply Forall2_len; apply mapM_Forall2; eauto|].
      intros j k x y u w _ _ _ Hu _ Nu _. exfalso. apply nth_error_In in Hu. apply in_map_iff in Hu. destruct Hu as (? & <- & _). discriminate.
    - rewrite (normalise_nz m) in D by auto. eapply quotients; [| |exact E|exact D].
      + apply nn_expit.
      + intros. eapply expit_up; eauto.
  Qed.

  (** Scores minus a normaliser, exponentiated. *)
  Lemma sub_keeps : forall z x y : F64 m, leb x y = true -> isnan (sub x z) = false -> isnan (sub y z) = false -> leb (sub x z) (sub y z) = true.
  Proof.
    intros z x y H Nx Ny. rewrite nan_x in *. f64. rewrite f_leb_x in *. rewrite !f_sub_x. rewrite f_sub_x, xround_nan in Nx, Ny. apply xround_mono. unfold x_sub in *.
    destruct (b2x x), (b2x y), (b2x z); try discriminate; auto. simpl in *. apply Rleb_le in H. apply Rleb_le. lra.
  Qed.
  Lemma exp_nan : forall x y : F64 m, safe_exp x = Ok y -> isnan y = false -> isnan x = false.
  Proof. intros x y E N. destruct x as [|[]| |]; auto. injection E as <-. discriminate. Qed.
  Lemma shifted_ordered : forall (z : F64 m) (s p : list (F64 m)), mapM (fun v => safe_exp (sub v z)) s = Ok p -> ordered_as s p.
  Proof.
    intros z s p E. apply mapM_Forall2 in E. split; [symmetry; apply (Forall2_len _ _ _ E)|]. destruct (proj1 (Forall2_nth_error _ _ _) E) as [LE FE].
    intros j k x y u w Hx Hy L Hu Hw Nu Nw. pose proof (FE _ _ _ Hx Hu) as E1. pose proof (FE _ _ _ Hy Hw) as E2.
    eapply (safe_exp_mono' m HE HM); [|exact E1|exact E2]. apply sub_keeps; auto; eapply exp_nan; eauto.
  Qed.

  (** The class that [index(max)] picks from the scores. *)
  Lemma ordered_label : forall (s p : list (F64 m)) i, Forall (fun x => isnan x = false) s -> Forall (fun x => isnan x = false) p ->
    ordered_as s p -> best s i -> most_probable p i.
  Proof.
    intros s p i NS NP [L O] B. rewrite Forall_forall in NS, NP. destruct B as [(v & t & -> & Nv & _)|(h & t & v & Es & _ & Hi & Nv & Mx & _)].
    - rewrite NS in Nv by (left; auto). discriminate.
    - destruct (nth_error_len _ _ _ _ L Hi) as [u Hu]. exists u. split; auto. intros j w Hw Nw.
      destruct (nth_error_len _ _ _ _ (eq_sym L) Hw) as [y Hy].
      apply (O j i y v w u); auto.
      + apply (nltb_leb (F64_ord m)); auto; [apply NS; eapply nth_error_In; eauto|eapply Mx; eauto].
      + apply NP. eapply nth_error_In; eauto.
  Qed.
End F.
