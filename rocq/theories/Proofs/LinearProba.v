(** Probabilities of linear classifiers on doubles. *)
From Coq Require Import String Reals Lia Lra.
From Flocq Require Import Core BinarySingleNaN.
From Verif Require Import Model.Py Model.Arith Model.F64 Model.XR Model.Utils Model.Base Model.Linear.
From Verif Require Import Spec.Matrix Spec.Ensembles Spec.Reals Spec.Libm Spec.Linear.
From Verif Require Import Proofs.Lib Proofs.Laws Proofs.Round Proofs.Unit Proofs.Arrays Proofs.Arrays2 Proofs.CRLibm Proofs.RealLib
  Proofs.Argmax Proofs.Ensemble Proofs.Boosting Proofs.Linear.
Local Open Scope R_scope.

Lemma add_0_id : forall x : f64, f_add (B754_zero false) x = x \/ x = B754_zero true.
Proof. intros [[]|[]| |]; auto. Qed.

Lemma half_fround : fround (1 / 2) = XFin (1 / 2).
Proof.
  unfold fround. rewrite (rnd_gen (1/2)).
  - rewrite Rlt_bool_true; auto. rewrite Rabs_pos_eq by lra. pose proof one_lt_maxb. lra.
  - replace (1 / 2) with (bpow radix2 (-1)) by (simpl; lra). apply generic_format_bpow. unfold SpecFloat.fexp, SpecFloat.emin. lia.
Qed.

Section F.
  Variable m : libm.
  Hypothesis HE : exp_nonneg m.
  Hypothesis HM : exp_monotone m.

  Lemma safe_exp_mono : forall x y a b : F64 m, is_finite x = true -> is_finite y = true -> leb x y = true ->
    safe_exp x = Ok a -> safe_exp y = Ok b -> leb a b = true.
  Proof.
    intros x y a b Fx Fy H. rewrite !safe_exp_fin by auto. f64. rewrite f_leb_x in H. rewrite (b2x_fin x), (b2x_fin y) in H by auto.
    simpl in H. apply Rleb_le in H. specialize (HM x y Fx Fy H).
    destruct (m_exp m x) as [a'|] eqn:Ea, (m_exp m y) as [b'|] eqn:Eb; intros Q R; injection Q as <-; injection R as <-; try tauto.
    - destruct (HE _ _ Fx Ea), (HE _ _ Fy Eb). rewrite f_leb_x, (b2x_fin a'), (b2x_fin b') by auto. apply Rleb_le. auto.
    - destruct (HE _ _ Fx Ea). rewrite f_leb_x, (b2x_fin a') by auto. auto.
  Qed.

  (** 1/(1+e) decreases with e. *)
  Lemma x_inv1_anti : forall e e', x_leb (XFin 0) e = true -> x_leb e e' = true ->
    exists q q', x_div (XFin 1) (xround (x_add (XFin 1) e)) = Ok q /\ x_div (XFin 1) (xround (x_add (XFin 1) e')) = Ok q' /\ x_leb q' q = true.
  Proof.
    intros e e' H0 H. 
    assert (G : forall e, x_leb (XFin 0) e = true -> x_leb (XFin 1) (xround (x_add (XFin 1) e)) = true).
    { intros u Hu. rewrite <- b2x_one. rewrite <- (xround_b2x (f_ofZE 1 0)) at 1. apply xround_mono. rewrite b2x_one.
      destruct u; simpl in *; try discriminate; auto. apply Rleb_le in Hu. apply Rleb_le. lra. }
    assert (H0' : x_leb (XFin 0) e' = true) by (eapply x_leb_trans; eauto).
    assert (M : x_leb (xround (x_add (XFin 1) e)) (xround (x_add (XFin 1) e')) = true).
    { apply xround_mono. destruct e, e'; simpl in *; try discriminate; auto. apply Rleb_le in H. apply Rleb_le. lra. }
    pose proof (G e H0) as G1. pose proof (G e' H0') as G2.
    set (d := xround (x_add (XFin 1) e)) in *. set (d' := xround (x_add (XFin 1) e')) in *.
    assert (Q : forall r, 1 <= r -> Reqb r 0 = false) by (intros; apply Reqb_neq; lra).
    destruct d as [| | |r], d' as [| | |r']; try discriminate; simpl in *.
    - eexists _, _. repeat split. simpl. apply Rleb_le. lra.
    - apply Rleb_le in G1. rewrite (Q r G1). eexists _, _. repeat split. simpl. apply Rleb_le. unfold Rdiv. rewrite Rmult_1_l.
      left. apply Rinv_0_lt_compat. lra.
    - apply Rleb_le in G1, G2, M. rewrite (Q r G1), (Q r' G2). eexists _, _. repeat split. simpl. apply Rleb_le. unfold Rdiv. rewrite !Rmult_1_l.
      apply Rinv_le_contravar; lra.
  Qed.

  Lemma opp_finite : forall x : f64, is_finite x = true -> is_finite (f_opp x) = true.
  Proof. intros x H. unfold f_opp. rewrite is_finite_Bopp. auto. Qed.

  Lemma fin_not_nan : forall x : f64, is_finite x = true -> is_nan x = false.
  Proof. intros [| | |]; simpl; auto. Qed.

  Lemma div1_mono : forall e e' p p' : F64 m, leb zero e = true -> leb e e' = true ->
    div one (add one e) = Ok p -> div one (add one e') = Ok p' -> leb p' p = true.
  Proof.
    intros e e' p p' H0 H D D'. f64. rewrite f_leb_x in *. rewrite b2x_zero in H0.
    pose proof (f_div_x (f_ofZE 1 0) (f_add (f_ofZE 1 0) e)) as Q. pose proof (f_div_x (f_ofZE 1 0) (f_add (f_ofZE 1 0) e')) as Q'.
    rewrite D in Q. rewrite D' in Q'. rewrite f_add_x, b2x_one in Q, Q'.
    destruct (x_inv1_anti _ _ H0 H) as (q & q' & E & E' & L). rewrite E in Q. rewrite E' in Q'. simpl in Q, Q'.
    injection Q as ->. injection Q' as ->. apply xround_mono. auto.
  Qed.

  Lemma expit_mono : forall x y p q : F64 m, is_finite x = true -> is_finite y = true -> leb x y = true ->
    expit x = Ok p -> expit y = Ok q -> leb p q = true.
  Proof.
    intros x y p q Fx Fy H. unfold expit. intros Ep Eq. inv_bind Ep. inv_bind Eq.
    assert (Fx' := opp_finite _ Fx). assert (Fy' := opp_finite _ Fy).
    eapply div1_mono; [| |exact Eq|exact Ep].
    - apply (safe_exp_ge0 m HE (opp y)); auto. apply fin_not_nan. auto.
    - eapply safe_exp_mono; [| | |eassumption|eassumption]; auto. f64. rewrite f_leb_x in *. rewrite !b2x_opp.
      rewrite (b2x_fin x), (b2x_fin y) in * by auto. simpl in *. apply Rleb_le in H. apply Rleb_le. lra.
  Qed.

  Lemma expit_nonpos : exp_at_0 m -> forall x p : F64 m, is_finite x = true -> leb x zero = true -> expit x = Ok p ->
    leb p (sub one p) = true.
  Proof.
    intros H0 x p Fx H Ep. destruct (H0 true) as (y & Ey & Fy & Vy).
    assert (EQ : exists h, expit (zero : F64 m) = Ok h /\ b2x h = XFin (1/2)).
    { unfold expit. rewrite safe_exp_fin by reflexivity. f64. change (f_opp (f_ofZE 0 0)) with (B754_zero true : f64). rewrite Ey. cbn [bind].
      pose proof (f_div_x (f_ofZE 1 0) (f_add (f_ofZE 1 0) y)) as Q. rewrite f_add_x, b2x_one, (b2x_fin y), Vy in Q by auto. simpl in Q.
      replace (1 + 1) with (IZR 2) in Q by lra. rewrite fround_IZR in Q by lia. simpl in Q.
      replace (Reqb 2 0) with false in Q by (symmetry; apply Reqb_neq; lra).
      destruct (f_div _ _) as [h|]; [|discriminate]. exists h. split; auto. simpl in Q. injection Q as Q. rewrite Q.
      unfold fround. rewrite (rnd_gen (1/2)).
      - rewrite Rlt_bool_true; auto. rewrite Rabs_pos_eq by lra. pose proof one_lt_maxb. lra.
      - replace (1 / 2) with (bpow radix2 (-1)) by (simpl; lra). apply generic_format_bpow. unfold SpecFloat.fexp, SpecFloat.emin. lia. }
    destruct EQ as (h & Eh & Vh).
    assert (L : leb p h = true) by (eapply expit_mono; [| | |exact Ep|exact Eh]; auto).
    f64. rewrite f_leb_x in *. rewrite Vh in L. rewrite f_sub_x, b2x_one.
    assert (N : is_nan x = false) by (apply fin_not_nan; auto).
    destruct (expit_unit m HE x N) as (p' & Ep' & P0 & _). rewrite Ep in Ep'. injection Ep' as <-. f64. rewrite f_leb_x, b2x_zero in P0.
    eapply x_leb_trans; [exact L|]. rewrite <- Vh, <- (xround_b2x h). apply xround_mono. rewrite Vh.
    destruct (b2x p); try discriminate. simpl in *. apply Rleb_le in L. apply Rleb_le. lra.
  Qed.

  Lemma x_div_mono : forall r a b, 0 < r -> x_leb a b = true ->
    exists q q', x_div a (XFin r) = Ok q /\ x_div b (XFin r) = Ok q' /\ x_leb q q' = true.
  Proof.
    intros r a b Hr H. assert (NZ : Reqb r 0 = false) by (apply Reqb_neq; lra).
    assert (NN : Rltb r 0 = false) by (unfold Rltb; destruct (Rlt_dec r 0); auto; lra).
    destruct a as [| | |u], b as [| | |v]; try discriminate H; unfold x_div, x_inf_times; rewrite ?NZ, ?NN; eexists _, _; repeat split; auto.
    simpl in *. apply Rleb_le in H. apply Rleb_le. unfold Rdiv. apply Rmult_le_compat_r; auto. left. apply Rinv_0_lt_compat. auto.
  Qed.
  Lemma div_mono : forall s a b p q : F64 m, finite s -> ltb zero s = true -> leb a b = true -> 
    div a s = Ok p -> div b s = Ok q -> leb p q = true.
  Proof.
    intros s a b p q Fs Ps H D D'. unfold finite in Fs. f64. apply f_fin_iff in Fs. destruct Fs as [r Er].
    rewrite f_ltb_x, b2x_zero, Er in Ps. simpl in Ps. apply Rltb_lt in Ps.
    rewrite f_leb_x in *. pose proof (f_div_x a s) as Q. pose proof (f_div_x b s) as Q'. rewrite D in Q. rewrite D' in Q'. rewrite Er in Q, Q'.
    destruct (x_div_mono r _ _ Ps H) as (x & y & E & E' & L). rewrite E in Q. rewrite E' in Q'. simpl in Q, Q'.
    injection Q as ->. injection Q' as ->. apply xround_mono. auto.
  Qed.

  (** [p] is a monotone image of [s]: a strict maximum of [p] is one of [s]. *)
  Lemma strict_best' : forall (s p : list (F64 m)) i v, length p = length s -> Forall (fun x => isnan x = false) s ->
    (forall j k x y u w, nth_error s j = Some x -> nth_error s k = Some y -> leb x y = true ->
       nth_error p j = Some u -> nth_error p k = Some w -> leb u w = true) ->
    nth_error p i = Some v -> (forall j w, j <> i -> nth_error p j = Some w -> ltb w v = true) -> best s i.
  Proof.
    intros s p i v Ln FS Mono Hi HS.
    destruct (nth_error_len _ _ _ _ (eq_sym Ln) Hi) as [x Hx].
    rewrite Forall_forall in FS.
    assert (NN : forall j y, nth_error s j = Some y -> isnan y = false).
    { intros j y Hy. apply FS. eapply nth_error_In; eauto. }
    assert (LT : forall j y, j <> i -> nth_error s j = Some y -> ltb y x = true).
    { intros j y Nj Hy. destruct (ltb y x) eqn:Q; auto. exfalso.
      assert (LE : leb x y = true). { apply (nltb_leb (F64_ord m)); eauto. }
      destruct (nth_error_len _ _ _ _ Ln Hy) as [w Hw].
      specialize (HS j w Nj Hw). specialize (Mono i j x y v w Hx Hy LE Hi Hw).
      apply (leb_nltb (F64_ord m)) in Mono. rewrite Mono in HS. discriminate. }
    right. destruct s as [|h t]; [destruct i; discriminate|]. exists h, t, x. split; auto. split; [apply (NN O); auto|]. split; auto. split; [eauto|].
    split.
    - intros j w Hw. destruct (Nat.eq_dec j i) as [->|Nj].
      + rewrite Hx in Hw. injection Hw as <-. apply (o_irr _ (F64_ord m)).
      + apply (leb_nltb (F64_ord m)), (ltb_leb (F64_ord m)). eauto.
    - intros j w Hj Hw. left. apply (LT j w); auto. lia.
  Qed.
  Lemma strict_best : forall (s p : list (F64 m)) i v, length p = length s -> Forall (fun x => is_finite x = true) s ->
    (forall j k x y u w, nth_error s j = Some x -> nth_error s k = Some y -> leb x y = true ->
       nth_error p j = Some u -> nth_error p k = Some w -> leb u w = true) ->
    nth_error p i = Some v -> (forall j w, j <> i -> nth_error p j = Some w -> ltb w v = true) -> best s i.
  Proof. intros s p i v Ln FS. apply strict_best'; auto. eapply Forall_impl; [|exact FS]. intros x Hx. apply fin_not_nan, Hx. Qed.

  (** [safe_exp] is monotone on all doubles but NaN. *)
  Lemma safe_exp_mono' : forall x y a b : F64 m, leb x y = true -> safe_exp x = Ok a -> safe_exp y = Ok b -> leb a b = true.
  Proof.
    intros x y a b H Ea Eb. pose proof (leb_nan (F64_ord m) _ _ H) as [Nx Ny].
    destruct (is_finite x) eqn:Fx; [destruct (is_finite y) eqn:Fy; [exact (safe_exp_mono x y a b Fx Fy H Ea Eb)|]|].
    - pose proof (safe_exp_ge0 m HE x a Nx Ea) as Ga. destruct y as [|[]| |]; try discriminate.
      + exfalso. revert H Fx. f64. rewrite f_leb_x. intros H Fx. rewrite (b2x_fin x Fx) in H. discriminate.
      + injection Eb as <-. revert Ga. f64. rewrite !f_leb_x, b2x_zero. change (b2x (B754_infinity false)) with XPInf. destruct (b2x a); auto.
    - destruct x as [|[]| |]; try discriminate.
      + injection Ea as <-. exact (safe_exp_ge0 m HE y b Ny Eb).
      + destruct y as [|[]| |]; try discriminate. injection Ea as <-. injection Eb as <-. reflexivity.
  Qed.
  Lemma sub_mono : forall z x y : F64 m, is_finite z = true -> leb x y = true -> leb (sub x z) (sub y z) = true.
  Proof.
    intros z x y Fz H. f64. rewrite f_leb_x in *. rewrite !f_sub_x, (b2x_fin z Fz). apply xround_mono.
    destruct (b2x x), (b2x y); try discriminate; auto. simpl in *. apply Rleb_le in H. apply Rleb_le. lra.
  Qed.
  Lemma sub_nan : forall z x : F64 m, is_finite z = true -> isnan x = false -> isnan (sub x z) = false.
  Proof.
    intros z x Fz H. f64. rewrite f_nan_x in *. rewrite !f_sub_x, (b2x_fin z Fz). destruct (b2x x); try discriminate; auto. simpl. unfold fround. destruct Rlt_bool, Rlt_bool; auto.
  Qed.

  Lemma expit_all : forall s : list (F64 m), Forall (fun x => isnan x = false) s ->
    exists e, mapM expit s = Ok e /\ Forall2 (fun x p => expit x = Ok p) s e /\ Forall (fun p => leb zero p = true /\ leb p one = true) e.
  Proof.
    intros s H; induction H as [|x s Hx H (e & E & F & U)]; [exists []; auto|].
    destruct (expit_unit m HE x Hx) as (p & Ep & P0 & P1). exists (p :: e). split; [cbn [mapM]; rewrite Ep; cbn [bind]; rewrite E; auto|].
    split; constructor; auto.
  Qed.

  Lemma psum_units : forall e : list (F64 m), Forall (fun p => leb zero p = true /\ leb p one = true) e ->
    (Z.of_nat (length e) <= 2 ^ 53)%Z -> leb zero (psum e) = true /\ finite (psum e).
  Proof.
    intros e U HL. assert (P : Forall (fun p : F64 m => leb zero p = true) e) by (eapply Forall_impl; [|exact U]; simpl; tauto).
    destruct (psum_ge (F64_unit m) e P) as [G0 _]. split; auto.
    unfold psum in *. assert (G : forall (vs : list (F64 m)) (acc : F64 m) n, leb zero acc = true -> leb acc (ofnat n) = true ->
       Forall (fun x => leb zero x = true /\ leb x one = true) vs -> (Z.of_nat (n + length vs) <= 2 ^ 53)%Z ->
       leb (fold_left add vs acc) (ofnat (n + length vs)) = true).
    { induction vs as [|v vs IH]; intros acc n A0 A1 F B; [simpl; rewrite Nat.add_0_r; auto|].
      inversion F as [|? ? [V0 V1] F']; subst. cbn [fold_left length].
      replace (n + S (length vs))%nat with (S n + length vs)%nat by lia.
      pose proof (u_add_pos_nan _ (F64_unit m) acc v A0 V0) as N1.
      assert (ON : leb (zero : F64 m) one = true) by (f64; rewrite f_leb_x, b2x_zero, b2x_one; apply Rleb_le; lra).
      assert (BN : (Z.of_nat n < 2 ^ 53)%Z) by (cbn [length] in B; lia).
      destruct (u_nat _ (F64_unit m) n) as (_ & N0 & _); [lia|].
      pose proof (u_add_pos_nan _ (F64_unit m) (ofnat n) one N0 ON) as N2.
      apply IH; auto; [| |cbn [length] in B; lia].
      - destruct (psum_ge (F64_unit m) [acc; v]) as [Q _]; [repeat constructor; auto|]. unfold psum in Q. cbn [fold_left] in Q.
        eapply (leb_trans (F64_ord m)); [exact Q|]. apply (u_add_mono _ (F64_unit m)); auto.
        + pose proof (u_add_0_l _ (F64_unit m) acc) as Q0. rewrite (proj2 (leb_nan (F64_ord m) _ _ A0)) in Q0. 
          rewrite (o_leb _ (F64_ord m)). rewrite Q0. apply Bool.orb_true_r.
        + apply (leb_refl (F64_ord m)). apply (leb_nan (F64_ord m) _ _ V0).
        + apply (leb_nan (F64_ord m) _ _ Q).
      - eapply (leb_trans (F64_ord m)); [apply (u_add_mono _ (F64_unit m)); [exact A1|exact V1|auto|auto]|].
        rewrite (o_leb _ (F64_ord m)). rewrite (u_nat_succ _ (F64_unit m)) by auto. apply Bool.orb_true_r. }
    specialize (G e zero O). rewrite Nat.add_0_l in G.
    assert (LE : leb (fold_left add e zero) (ofnat (length e) : F64 m) = true).
    { apply G; auto; reflexivity. }
    destruct (u_nat _ (F64_unit m) (length e)) as (Fn & _); auto.
    eapply (u_fin_le _ (F64_unit m)); eauto.
  Qed.

  Lemma normalise_nz : forall e : list (F64 m), eqb (psum e) zero = false -> normalise e = mapM (fun v => div v (psum e)) e.
  Proof. intros e H. unfold normalise. apply mapM_ext. intros x _. rewrite H. auto. Qed.
  Lemma normalise_z : forall e : list (F64 m), eqb (psum e) zero = true -> normalise e = Ok (map (fun _ => nanv) e).
  Proof. intros e H. unfold normalise. apply mapM_pure. intros x _. rewrite H. auto. Qed.

  Lemma pos_of : forall s : F64 m, leb zero s = true -> eqb s zero = false -> ltb zero s = true.
  Proof.
    intros s H N. rewrite (o_leb _ (F64_ord m)) in H. apply Bool.orb_true_iff in H. destruct H as [|H]; auto.
    rewrite (o_sym _ (F64_ord m)), N in H. discriminate.
  Qed.

  (** Dividing by a positive finite sum keeps the order. *)
  Lemma div_all_mono : forall (e p : list (F64 m)) s, finite s -> ltb zero s = true -> mapM (fun v => div v s) e = Ok p ->
    forall j k x y u w, nth_error e j = Some x -> nth_error e k = Some y -> leb x y = true ->
       nth_error p j = Some u -> nth_error p k = Some w -> leb u w = true.
  Proof.
    intros e p s Fs Ps E j k x y u w Hx Hy L Hu Hw. apply mapM_Forall2 in E.
    apply (div_mono s x y); auto.
    - apply (proj2 (proj1 (Forall2_nth_error _ _ _) E) j); auto.
    - apply (proj2 (proj1 (Forall2_nth_error _ _ _) E) k); auto.
  Qed.

  Lemma expit_zero : exp_at_0 m -> exists h, expit (zero : F64 m) = Ok h /\ b2x h = XFin (1/2).
  Proof.
    intros H0. destruct (H0 true) as (y & Ey & Fy & Vy). unfold expit. rewrite safe_exp_fin by reflexivity. f64. change (f_opp (f_ofZE 0 0)) with (B754_zero true : f64). rewrite Ey. cbn [bind].
    pose proof (f_div_x (f_ofZE 1 0) (f_add (f_ofZE 1 0) y)) as Q. rewrite f_add_x, b2x_one, (b2x_fin y), Vy in Q by auto. simpl in Q.
    replace (1 + 1) with (IZR 2) in Q by lra. rewrite fround_IZR in Q by lia. simpl in Q.
    replace (Reqb 2 0) with false in Q by (symmetry; apply Reqb_neq; lra).
    destruct (f_div _ _) as [h|]; [|discriminate]. exists h. split; auto. simpl in Q. injection Q as Q. rewrite Q. apply half_fround.
  Qed.
  Lemma expit_nonneg : exp_at_0 m -> forall x p : F64 m, is_finite x = true -> leb zero x = true -> expit x = Ok p ->
    leb (sub one p) p = true.
  Proof.
    intros H0 x p Fx H Ep. destruct (expit_zero H0) as (h & Eh & Vh).
    assert (L : leb h p = true) by (eapply expit_mono; [| | |exact Eh|exact Ep]; auto).
    f64. rewrite f_leb_x in *. rewrite Vh in L. rewrite f_sub_x, b2x_one.
    assert (N : is_nan x = false) by (apply fin_not_nan; auto).
    destruct (expit_unit m HE x N) as (p' & Ep' & _ & P1). rewrite Ep in Ep'. injection Ep' as <-. f64. rewrite f_leb_x, b2x_one in P1.
    eapply x_leb_trans; [|exact L]. rewrite <- Vh, <- (xround_b2x h). apply xround_mono. rewrite Vh.
    destruct (b2x p); try discriminate. simpl in *. apply Rleb_le in L. apply Rleb_le. lra.
  Qed.

  (** A singleton has its only element as best. *)
  Lemma best_single : forall x : F64 m, is_finite x = true -> best [x] 0%nat.
  Proof.
    intros x F. right. exists x, [], x. pose proof (fin_not_nan x F). repeat split; auto.
    - intros [|j] w Hw; [injection Hw as <-; apply (o_irr _ (F64_ord m))|destruct j; discriminate].
    - intros; lia.
  Qed.
  Lemma no_strict_nan : forall (p : list (F64 m)) i v w j, nth_error p i = Some v -> (forall j w, j <> i -> nth_error p j = Some w -> ltb w v = true) ->
    j <> i -> nth_error p j = Some w -> isnan v = false /\ isnan w = false.
  Proof. intros p i v w j Hi H Nj Hj. apply and_comm. apply (o_lt_nan _ (F64_ord m)). eauto. Qed.

  Lemma ovr_strict : forall (s e p : list (F64 m)) i, Forall (fun x => is_finite x = true) s -> (Z.of_nat (length s) <= 2 ^ 53)%Z ->
    mapM expit s = Ok e -> normalise e = Ok p -> strict_max p i -> best s i.
  Proof.
    intros s e p i Fs Ls E N (v & Hi & Hv). assert (Le : length e = length s) by (apply mapM_length in E; auto).
    assert (NF : Forall (fun x : F64 m => isnan x = false) s). { eapply Forall_impl; [|exact Fs]. intros; apply fin_not_nan; auto. }
    destruct (expit_all s NF) as (e' & Ee & _ & Ue). rewrite E in Ee. injection Ee as <-.
    rewrite <- Le in Ls. destruct (psum_units e Ue Ls) as [P0 PF]. destruct (eqb (psum e) zero) eqn:Z.
    - rewrite (normalise_z e Z) in N. injection N as <-.
      destruct s as [|s0 [|s1 s]].
      + destruct e; [|discriminate]. destruct i; discriminate.
      + destruct e as [|e0 [|]]; try discriminate. destruct i as [|[|]]; try discriminate. apply best_single. inversion Fs; auto.
      + destruct e as [|e0 [|e1 e]]; try discriminate. exfalso.
        assert (Q : exists j, j <> i /\ nth_error (map (fun _ : F64 m => nanv) (e0 :: e1 :: e)) j = Some (nanv : F64 m)).
        { destruct i; [exists 1%nat|exists O]; split; auto. }
        destruct Q as (j & Nj & Hj). destruct (no_strict_nan _ i v nanv j Hi Hv Nj Hj) as [_ Q]. discriminate.
    - rewrite (normalise_nz e Z) in N.
      assert (Lp : length p = length s) by (apply mapM_length in N; congruence).
      apply (strict_best s p i v); auto. intros j k x y u w Hx Hy L Hu Hw.
      destruct (nth_error_len _ _ _ _ Le Hx) as [ex Hex]. destruct (nth_error_len _ _ _ _ Le Hy) as [ey Hey].
      eapply (div_all_mono e p (psum e) PF (pos_of _ P0 Z) N j k ex ey); eauto.
      apply mapM_Forall2 in E. apply Forall2_nth_error in E. destruct E as [_ E].
      rewrite Forall_forall in Fs. apply (expit_mono x y); eauto using nth_error_In.
  Qed.

  Lemma fin_finite : forall x : F64 m, is_finite x = true -> finite x.
  Proof. intros x H. unfold finite. f64. apply f_fin_iff. exists (B2R x). apply b2x_fin. auto. Qed.
  Lemma sfmax_strict : forall (s p : list (F64 m)) i, Forall (fun x => is_finite x = true) s ->
    sfmax s = Ok p -> strict_max p i -> best s i.
  Proof.
    intros s p i Fs E (v & Hi & Hv). unfold sfmax in E. inv_bind E. rename a into e, E0 into Ee.
    assert (Le : length e = length s) by (apply mapM_length in Ee; auto).
    assert (Lp : length p = length s) by (apply mapM_length in E; congruence).
    assert (Ne : Forall (fun x : F64 m => leb zero x = true) e).
    { apply Forall_forall. intros x Hx. destruct (mapM_in _ _ _ x Ee Hx) as (y & Hy & Ey). apply (safe_exp_ge0 m HE y); auto.
      rewrite Forall_forall in Fs. apply fin_not_nan. auto. }
    destruct (psum_ge (F64_unit m) e Ne) as [P0 PG].
    assert (NZ : eqb (psum e) zero = false).
    { destruct (eqb (psum e) zero) eqn:Z; auto. destruct e as [|e0 e]; [destruct p; [destruct i; discriminate|discriminate]|].
      cbn [mapM] in E. rewrite (u_div_err _ (F64_unit m)) in E by auto. discriminate. }
    destruct (is_finite (psum e)) eqn:PF.
    - assert (PF' : finite (psum e)). { apply fin_finite. auto. }
      apply (strict_best s p i v); auto. intros j k x y u w Hx Hy L Hu Hw.
      destruct (nth_error_len _ _ _ _ Le Hx) as [ex Hex]. destruct (nth_error_len _ _ _ _ Le Hy) as [ey Hey].
      eapply (div_all_mono e p (psum e) PF' (pos_of _ P0 NZ) E j k ex ey); eauto.
      apply mapM_Forall2 in Ee. apply Forall2_nth_error in Ee. destruct Ee as [_ Ee].
      rewrite Forall_forall in Fs. apply (safe_exp_mono x y); eauto using nth_error_In.
    - destruct s as [|s0 [|s1 s]].
      + destruct p; [|discriminate]. destruct i; discriminate.
      + destruct p as [|p0 [|]]; try discriminate. destruct i as [|[|]]; try discriminate. apply best_single. inversion Fs; auto.
      + exfalso. assert (V : b2x (psum e) = XPInf).
        { revert P0 PF. generalize (psum e). clear. intros t P0 PF. f64. rewrite f_leb_x, b2x_zero in P0. destruct t as [|[]| |]; try discriminate; auto. }
        assert (Z : forall j w, nth_error p j = Some w -> isnan w = true \/ b2x w = XFin 0).
        { intros j w Hw. apply mapM_Forall2 in E. assert (Ej := E). apply Forall2_len in Ej.
          destruct (nth_error_len _ _ _ _ Ej Hw) as [x Hx]. apply Forall2_nth_error in E. destruct E as [_ E]. specialize (E j x w Hx Hw).
          revert V E. generalize (psum e). clear. intros t V E.
          f64. pose proof (f_div_x x t) as Q. rewrite E, V in Q. simpl in Q. rewrite f_nan_x.
          destruct (b2x x); simpl in Q; injection Q as ->; auto. right. apply (fround_IZR 0). lia. }
        destruct p as [|p0 [|p1 p]]; try discriminate.
        assert (Q : exists j w, j <> i /\ nth_error (p0 :: p1 :: p) j = Some w). { destruct i; [exists 1%nat, p1|exists O, p0]; split; auto. }
        destruct Q as (j & w & Nj & Hw). destruct (no_strict_nan _ i v w j Hi Hv Nj Hw) as [N1 N2].
        specialize (Hv j w Nj Hw). destruct (Z i v Hi) as [Q|Q]; [congruence|]. destruct (Z j w Hw) as [Q'|Q']; [congruence|].
        f64. rewrite f_ltb_x, Q, Q' in Hv. simpl in Hv. unfold Rltb in Hv. destruct (Rlt_dec 0 0); [lra|discriminate].
  Qed.

  Lemma best_pm : forall (x : F64 m) i, is_finite x = true -> best [opp x; x] i -> i = (if ltb zero x then 1 else 0)%nat.
  Proof.
    intros x i F H. assert (B2 := b2x_opp x). 
    assert (LT : ltb (opp x) x = ltb zero x).
    { f64. rewrite !f_ltb_x, B2, b2x_zero, (b2x_fin x F). simpl. unfold Rltb. destruct (Rlt_dec (- B2R x) (B2R x)), (Rlt_dec 0 (B2R x)); auto; lra. }
    destruct H as [(v & t & E & N & _)|(h & t & v & E & Nh & Hi & Nv & HA & HB)].
    - injection E as <- <-. f64. rewrite (fin_not_nan (f_opp x)) in N by (apply opp_finite; auto). discriminate.
    - destruct i as [|[|[|]]]; try discriminate; injection Hi as <-.
      + assert (Q : ltb (opp x) x = false) by exact (HA 1%nat x eq_refl). rewrite <- LT, Q. auto.
      + destruct (HB O (opp x) ltac:(lia) eq_refl) as [Q|Q]; [rewrite <- LT, Q; auto|]. f64. rewrite (fin_not_nan (f_opp x)) in Q by (apply opp_finite; auto). discriminate.
  Qed.
End F.

(** Which formula a predict_proba method uses. *)
Section Route.
  Context {A : arith} {L : Type}.
  Lemma is_ovr_yes : forall c : linear A L, ovr_setting c -> is_ovr c = Ok true.
  Proof.
    intros c [H|[H|[H [HL|HS]]]]; unfold is_ovr; rewrite H; cbn [getattr bind]; try reflexivity.
    - change (str_eqb (lit "auto") (lit "ovr") || str_eqb (lit "auto") (lit "warn"))%bool with false. change (str_eqb (lit "auto") (lit "auto")) with true.
      cbv iota. apply Nat.leb_le in HL. rewrite HL. auto.
    - change (str_eqb (lit "auto") (lit "ovr") || str_eqb (lit "auto") (lit "warn"))%bool with false. change (str_eqb (lit "auto") (lit "auto")) with true.
      cbv iota. rewrite HS. destruct (List.length (l_classes c) <=? 2)%nat; reflexivity.
  Qed.
  Lemma is_ovr_no : forall c : linear A L, multinomial_setting c -> is_ovr c = Ok false.
  Proof.
    intros c (HM & HS & N). unfold is_ovr. destruct (l_multi c) as [mc|] eqn:EM; [|congruence]. destruct (l_solver c) as [so|] eqn:ES; [|congruence].
    cbn [getattr bind]. unfold ovr_setting in N. rewrite EM, ES in N.
    destruct (str_eqb mc (lit "ovr")) eqn:E1; [apply str_eqb_ok in E1; subst; tauto|].
    destruct (str_eqb mc (lit "warn")) eqn:E2; [apply str_eqb_ok in E2; subst; tauto|].
    destruct (str_eqb mc (lit "auto")) eqn:E3; [apply str_eqb_ok in E3; subst|auto]. cbn [orb].
    destruct (List.length (l_classes c) <=? 2)%nat eqn:E4; [apply Nat.leb_le in E4; tauto|].
    destruct (str_eqb so (lit "liblinear")) eqn:E5; [apply str_eqb_ok in E5; subst; tauto|auto].
  Qed.
  Lemma ovr_route : forall (c : linear A L) f X, one_vs_rest c f -> f X = predict_proba_lr c X.
  Proof.
    intros c f X [[-> H]|[-> H]].
    - unfold logistic_predict_proba. rewrite is_ovr_yes by auto. auto.
    - unfold sgd_predict_proba, check_proba, sgd_predict_proba_inner. rewrite H. reflexivity.
  Qed.
  Lemma multi_route : forall (c : linear A L) f X, multinomial c f ->
    f X = (s <- decision_function c X ;; match s with D1 l => mapM (fun a => sfmax [opp a; a]) l | D2 M => mapM sfmax M end).
  Proof. intros c f X [-> H]. unfold logistic_predict_proba. rewrite is_ovr_no by auto. auto. Qed.
End Route.

Lemma mapM_fins : forall (f : XR -> res XR) (g : R -> R) l, (forall r, f (XFin r) = Ok (XFin (g r))) -> mapM f (fins l) = Ok (fins (map g l)).
Proof. intros f g l H. unfold fins. rewrite mapM_map, map_map. apply (mapM_pure _ (fun r => XFin (g r) : XR)). intros; apply H. Qed.
Lemma logistics_pos : forall l, Forall (fun x => 0 < x) (map logistic l).
Proof. intro l. apply Forall_map, Forall_forall. intros x _. apply logistic_pos. Qed.
Lemma normalise_XR : forall l, 0 < Rsum l -> normalise (A:=XR) (fins l) = Ok (fins (map (fun x => x / Rsum l) l)).
Proof.
  intros l H. unfold normalise. rewrite psum_fins. apply mapM_fins. intro r. rewrite x_zero. simpl.
  replace (Reqb (Rsum l) 0) with false by (symmetry; apply Reqb_neq; lra). reflexivity.
Qed.

(** x ** 2 does not overflow up to 2^511. *)
Lemma sqr_small : forall m (d : F64 m), leb (absv d) (ofZE 1 511 : F64 m) = true -> exists q, sqr d = Ok q.
Proof.
  intros m d H. f64. cbn [sqr F64]. unfold f_sqr. destruct (is_finite d) eqn:F; [|exists (Bmult mode_NE d d); auto].
  assert (G : is_finite (Bmult mode_NE d d) = true); [|unfold f_mul; rewrite G; exists (Bmult mode_NE d d); reflexivity].
  assert (V : b2x (f_ofZE 1 511) = XFin (bpow radix2 511)).
  { rewrite f_ofZE_x. unfold F2R. cbn [Fnum Fexp]. rewrite Rmult_1_l. unfold fround.
    rewrite (rnd_gen (bpow radix2 511)) by (apply generic_format_bpow; unfold SpecFloat.fexp, SpecFloat.emin; lia).
    rewrite Rlt_bool_true; auto. rewrite Rabs_pos_eq by apply bpow_ge_0. apply bpow_lt. lia. }
  rewrite f_leb_x, V in H. assert (A : b2x (f_abs d) = XFin (Rabs (B2R d))).
  { rewrite b2x_fin by (unfold f_abs; rewrite is_finite_Babs; auto). unfold f_abs. rewrite B2R_Babs. auto. }
  rewrite A in H. simpl in H. apply Rleb_le in H.
  pose proof (f_mul_x d d) as Q. rewrite (b2x_fin d F) in Q. simpl in Q. unfold fround in Q. rewrite Rlt_bool_true in Q.
  - unfold f_mul in Q. destruct (Bmult mode_NE d d) as [|[]| |]; auto; discriminate.
  - assert (S : Rabs (B2R d * B2R d) <= bpow radix2 1022).
    { rewrite Rabs_mult. change 1022%Z with (511 + 511)%Z. rewrite bpow_plus. apply Rmult_le_compat; auto using Rabs_pos. }
    unfold rnd. apply Rle_lt_trans with (bpow radix2 1022); [|apply bpow_lt; lia].
    apply abs_round_le_generic; auto with typeclass_instances. apply generic_format_bpow. unfold SpecFloat.fexp, SpecFloat.emin. lia.
Qed.
