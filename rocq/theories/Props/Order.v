(** C80: rounding never reverses an order. *)
From Coq Require Import String Reals Lia Lra.
From Flocq Require Import Core BinarySingleNaN.
From Verif Require Import Model.Py Model.Arith Model.F64 Model.Utils Model.Base Model.Tree Model.Ensemble Model.Xgb Model.Linear Model.NaiveBayes Model.Preprocessing.
From Verif Require Import Spec.Matrix Spec.Scaling Spec.Libm Spec.Linear Spec.Order.
From Verif Require Import Proofs.Lib Proofs.Laws Proofs.Round Proofs.Unit Proofs.Arrays Proofs.Arrays2 Proofs.CRLibm Proofs.Argmax Proofs.Boosting Proofs.Linear Proofs.LinearProba
  Proofs.Scaling Proofs.Order.
From Verif Require Proofs.Shapes.
From Verif Require Props.Scaling Props.Linear Props.Bayes.
Local Open Scope nat_scope.

(** * Scalers *)
Lemma finite_is : forall (m : libm) (x : F64 m), finite x -> is_finite x = true.
Proof. intros m x H. unfold finite in H. destruct x as [|[]| |]; auto; discriminate H. Qed.
Lemma mapped_order : forall (m : libm) (R : nat -> F64 m -> F64 m -> Prop) r c M D,
  mapped R r c M D -> (forall i j i' x y u w, cell M i j = Some x -> cell M i' j = Some y -> leb x y = true -> R j x u -> R j y w -> leb u w = true) -> keeps_column_order M D.
Proof.
  intros m R r c M D [_ H] HR i i' j x y u w Hx Hy L Hu Hw.
  destruct (H _ _ _ Hx) as (u' & Hu' & Ru). destruct (H _ _ _ Hy) as (w' & Hw' & Rw).
  rewrite Hu in Hu'. rewrite Hw in Hw'. injection Hu' as ->. injection Hw' as ->. eauto.
Qed.

(** StandardScaler: finite means, finite positive scales. *)
Theorem C80_standard_scaler : forall (m : libm) (s : std_scaler (F64 m)) mean scale (M D : list (list (F64 m))) r c,
  rect M r c -> 1 <= r ->
  (ss_mean_on s = true -> ss_mean s = Some mean /\ length mean = c /\ Forall finite mean) ->
  (ss_std_on s = true -> ss_scale s = Some scale /\ length scale = c /\ Forall (fun x => finite x /\ ltb zero x = true) scale) ->
  std_transform s (ll M) = Ok (ll D) -> keeps_column_order M D.
Proof.
  intros m s mean scale M D r c RM Hr HMe HS E.
  apply (Scaling.C28_dense m s mean scale M r c RM Hr) in E; [|intro Q; destruct (HMe Q); tauto|intro Q; destruct (HS Q); tauto].
  destruct E as (D' & E & HD). apply ll_inj in E. subst D'. eapply mapped_order; [exact HD|].
  intros i j i' x y u w _ _ L (x' & Hx & Hu) (y' & Hy & Hw).
  assert (L' : leb x' y' = true).
  { destruct (ss_mean_on s); [|congruence]. destruct Hx as (a & Ea & ->), Hy as (b & Eb & ->). rewrite Ea in Eb. injection Eb as <-.
    destruct (HMe eq_refl) as (_ & _ & F). rewrite Forall_forall in F. specialize (F a (nth_error_In _ _ Ea)). apply sub_mono; auto. apply finite_is. exact F. }
  destruct (ss_std_on s); [|congruence]. destruct Hu as (a & Ea & Du), Hw as (b & Eb & Dw). rewrite Ea in Eb. injection Eb as <-.
  destruct (HS eq_refl) as (_ & _ & F). rewrite Forall_forall in F. destruct (F a (nth_error_In _ _ Ea)) as [Fa Pa]. apply (div_mono m a x' y'); auto.
Qed.
Print Assumptions C80_standard_scaler.

(** MinMaxScaler: everything finite, no scale negative. *)
Theorem C80_minmax_scaler : forall (m : libm) scale mn (M D : list (list (F64 m))) r c,
  rect M r c -> 1 <= r -> length scale = c -> length mn = c -> Forall (Forall finite) M ->
  Forall (fun x => finite x /\ leb zero x = true) scale -> Forall finite mn ->
  minmax_transform {| mm_scale := Some scale; mm_min := Some mn |} (ll M) = Ok (ll D) -> keeps_column_order M D.
Proof.
  intros m scale mn M D r c RM Hr L1 L2 FM FS FN E.
  destruct (Scaling.C29_minmax m scale mn M r c RM Hr L1 L2) as (D' & E' & HD & _). rewrite E in E'. injection E' as E'.
  assert (ED : D = D') by (apply ll_inj; unfold ll; f_equal; exact E'). subst D'.
  eapply mapped_order; [exact HD|]. intros i j i' x y u w Hx Hy L (s & b & Es & Eb & ->) (s' & b' & Es' & Eb' & ->).
  rewrite Es in Es'. rewrite Eb in Eb'. injection Es' as <-. injection Eb' as <-.
  rewrite Forall_forall in FS, FN. destruct (FS s (nth_error_In _ _ Es)). specialize (FN b (nth_error_In _ _ Eb)).
  assert (G : forall i x, cell M i j = Some x -> finite x).
  { intros i0 x0 HC. unfold cell in HC. destruct (nth_error M i0) as [row|] eqn:Er; [|discriminate]. rewrite Forall_forall in FM. specialize (FM row (nth_error_In _ _ Er)).
    rewrite Forall_forall in FM. apply FM. eapply nth_error_In; eauto. }
  apply (f_affine_mono m x y s b); eauto.
Qed.
Print Assumptions C80_minmax_scaler.

(** MaxAbsScaler: finite positive scales. *)
Theorem C80_maxabs_scaler : forall (m : libm) scale (M D : list (list (F64 m))) r c,
  rect M r c -> 1 <= r -> length scale = c -> Forall (fun x => finite x /\ ltb zero x = true) scale ->
  maxabs_transform (Some scale) (ll M) = Ok (ll D) -> keeps_column_order M D.
Proof.
  intros m scale M D r c RM Hr L F E. apply (Scaling.C29_maxabs m scale M r c RM Hr L) in E. destruct E as (D' & E & HD). apply ll_inj in E. subst D'.
  eapply mapped_order; [exact HD|]. intros i j i' x y u w _ _ Le (a & Ea & Du) (b & Eb & Dw). rewrite Ea in Eb. injection Eb as <-.
  rewrite Forall_forall in F. destruct (F a (nth_error_In _ _ Ea)) as [Fa Pa]. apply (div_mono m a x y); auto.
Qed.
Print Assumptions C80_maxabs_scaler.

(** * Two classes: samples are ranked by probability as by score *)
Lemma expits_ranked : forall (m : libm) (s t ps qs : list (F64 m)), exp_nonneg m -> exp_monotone m ->
  mapM expit s = Ok ps -> mapM expit t = Ok qs -> ranked s t (map (fun p => [sub one p; p]) ps) (map (fun p => [sub one p; p]) qs).
Proof.
  intros m s t ps qs HE HM E E' i j x y Hx Hy L. destruct (mapM_nth _ _ _ _ _ E Hx) as (p & Hp & Ep). destruct (mapM_nth _ _ _ _ _ E' Hy) as (q & Hq & Eq).
  exists (sub one p), p, (sub one q), q. rewrite !nth_error_map, Hp, Hq. split; auto. split; auto.
  assert (Q : leb p q = true) by (eapply (expit_up m HE HM); eauto). split; auto. apply one_minus_anti; auto.
Qed.

(** Logistic regression and SGD with one-vs-rest probabilities, on any two
    batches. *)
Theorem C80_linear_binary : forall (m : libm) (L : Type) (c : linear (F64 m) L) f X Y s t P Q, exp_nonneg m -> exp_monotone m ->
  one_vs_rest c f -> decision_function c X = Ok (D1 s) -> decision_function c Y = Ok (D1 t) -> f X = Ok P -> f Y = Ok Q -> ranked s t P Q.
Proof.
  intros m L c f X Y s t P Q HE HM H Ex Ey EP EQ. rewrite (ovr_route c f X H) in EP. rewrite (ovr_route c f Y H) in EQ. unfold predict_proba_lr in *.
  rewrite Ex in EP. rewrite Ey in EQ. cbn [bind] in EP, EQ.
  assert (G : forall (l : list (F64 m)) R, mapM (fun x => a <- expit x ;; Ok [sub one a; a]) l = Ok R -> exists ps, mapM expit l = Ok ps /\ R = map (fun p => [sub one p; p]) ps).
  { induction l as [|x l IH]; intros R ER; cbn [mapM] in *; [injection ER as <-; exists []; auto|].
    destruct (expit x) as [e|]; [|discriminate]. cbn [bind] in ER. destruct (mapM _ l) as [R'|] eqn:E; [|discriminate]. injection ER as <-. destruct (IH _ eq_refl) as (ps & -> & ->).
    exists (e :: ps). auto. }
  destruct (G _ _ EP) as (ps & E1 & ->). destruct (G _ _ EQ) as (qs & E2 & ->). eapply expits_ranked; eauto.
Qed.
Print Assumptions C80_linear_binary.

(** Gradient boosting with two classes and the deviance loss. *)
Theorem C80_boosting_binary : forall (m : libm) (L : Type) (g : gb (F64 m) L) X Y s t P Q, exp_nonneg m -> exp_monotone m ->
  gb_loss g = LBinary -> gb_raw_predict g X = Ok (map (fun x => [x]) s) -> gb_raw_predict g Y = Ok (map (fun x => [x]) t) ->
  gb_predict_proba g X = Ok P -> gb_predict_proba g Y = Ok Q -> ranked s t P Q.
Proof.
  intros m L g X Y s t P Q HE HM HL Ex Ey EP EQ. unfold gb_predict_proba in *. rewrite Ex in EP. rewrite Ey in EQ. rewrite HL in *. cbn [bind raw_to_proba] in EP, EQ.
  assert (G : forall (l : list (F64 m)) R, binary_proba expit (map (fun x => [x]) l) = Ok R -> exists ps, mapM expit l = Ok ps /\ R = map (fun p => [sub one p; p]) ps).
  { intros l R ER. destruct l as [|x l]; [discriminate ER|].
    assert (T : exists ps, mapM expit (x :: l) = Ok ps).
    { apply mapM_total. intros y _. destruct (isnan y) eqn:N; [|destruct (expit_unit m HE y N) as (p & Ep & _); eauto].
      destruct y as [|[]| |]; try discriminate N. exists (B754_nan : F64 m). reflexivity. }
    destruct T as [ps Eps]. exists ps. split; auto. pose proof (binary_proba_ok expit (x :: l) ps ltac:(discriminate) Eps) as Q0. rewrite ER in Q0. injection Q0 as ->. auto. }
  destruct (G _ _ EP) as (ps & E1 & ->). destruct (G _ _ EQ) as (qs & E2 & ->). eapply expits_ranked; eauto.
Qed.
Print Assumptions C80_boosting_binary.

(** XGBoost with objective binary:logistic. *)
Theorem C80_xgb_binary : forall (m : libm) (L : Type) (g : xgb (F64 m) L) X Y s t P Q, exp_nonneg m -> exp_monotone m ->
  xg_objective g = lit "binary:logistic" -> xgb_binary_scores g X = Ok s -> xgb_binary_scores g Y = Ok t ->
  xgb_predict_proba g X = Ok P -> xgb_predict_proba g Y = Ok Q -> ranked s t P Q.
Proof.
  intros m L g X Y s t P Q HE HM HO Ex Ey EP EQ. unfold xgb_predict_proba in *.
  assert (G : forall X0 l R, xgb_binary_scores g X0 = Ok l ->
    (X' <- check_array X0 HError ;;
     if str_eqb (xg_objective g) (lit "multi:softprob") then
       preds <- xgb_scores g X' ;; n <- len X' ;; mapM (fun i => r <- mapM (fun j => p <- lget preds j ;; lnth p i) (zrange 0 (xg_nclasses g)) ;; sfmax r) (range n)
     else if str_eqb (xg_objective g) (lit "binary:logistic") then
       preds <- xgb_binary_scores g X' ;; out <- mapM expit preds ;; Ok (map (fun x => [sub one x; x]) out)
     else Err ValueError) = Ok R -> exists ps, mapM expit l = Ok ps /\ R = map (fun p => [sub one p; p]) ps).
  { intros X0 l R E1 E2. rewrite HO in E2. change (str_eqb (lit "binary:logistic") (lit "multi:softprob")) with false in E2. change (str_eqb (lit "binary:logistic") (lit "binary:logistic")) with true in E2. cbv iota in E2.
    inv_bind E2. inv_bind E2. inv_bind E2. injection E2 as <-.
    assert (a = X0). { destruct X0 as [[|x0 X0]| | |]; cbn in E; try discriminate; injection E as <-; auto. exfalso. unfold xgb_binary_scores in E0. cbn in E0. discriminate. }
    subst a. rewrite E1 in E0. injection E0 as <-. eauto. }
  destruct (G _ _ _ Ex EP) as (ps & E1 & ->). destruct (G _ _ _ Ey EQ) as (qs & E2 & ->). eapply expits_ranked; eauto.
Qed.
Print Assumptions C80_xgb_binary.

(** * Many classes: the probabilities of a sample are ordered as its scores *)
Theorem C80_linear_classes : forall (m : libm) (L : Type) (c : linear (F64 m) L) f X S P, exp_nonneg m -> exp_monotone m ->
  one_vs_rest c f \/ multinomial c f -> decision_function c X = Ok (D2 S) -> f X = Ok P -> Forall2 ordered_as S P.
Proof.
  intros m L c f X S P HE HM H E EP. destruct H as [H|H].
  - rewrite (ovr_route c f X H) in EP. unfold predict_proba_lr in EP. rewrite E in EP. cbn [bind] in EP. inv_bind EP. clear E. apply mapM_Forall2 in E0, EP.
    revert P EP. induction E0 as [|s e S Es Hs E0 IH]; intros P EP; inversion EP; subst; constructor; auto. eapply normalise_ordered; eauto.
  - rewrite (multi_route c f X H) in EP. rewrite E in EP. cbn [bind] in EP. apply mapM_Forall2 in EP. eapply Forall2_imp; [|exact EP]. intros s p. apply sfmax_ordered; auto.
Qed.
Print Assumptions C80_linear_classes.

Lemma checked : forall (A : arith) (X Y : arr A), issparse X = false -> X <> Arr [] -> check_array X HError = Ok Y -> Y = X.
Proof. intros A [[|x l]| | |] Y HX NE E; cbn in E; try discriminate; try (exfalso; apply NE; reflexivity). injection E as <-. reflexivity. Qed.
Theorem C80_bayes_classes : forall (m : libm) (L : Type) (n : nb (F64 m) L) X J P, exp_nonneg m -> exp_monotone m ->
  issparse X = false -> X <> Arr [] -> jll n X = Ok J -> nb_predict_proba n X = Ok P -> Forall2 ordered_as J P.
Proof.
  intros m L n X J P HE HM HX NE EJ EP. unfold nb_predict_proba in EP. inv_bind EP. unfold nb_predict_log_proba in E. inv_bind E.
  apply checked in E0; auto. subst a0. rewrite EJ in E. cbn [bind] in E. destruct (mapM logsumexp J) as [lp|] eqn:E1; [|discriminate]. injection E as <-. clear EJ.
  apply mapM_Forall2 in E1. revert P EP. induction E1 as [|s z J Z Hz E1 IH]; intros P EP; cbn [zip_with combine map mapM fst snd] in EP; [injection EP as <-; constructor|].
  inv_bind EP. inv_bind EP. injection EP as <-. constructor; [|apply IH; auto]. rewrite mapM_map in E. eapply (shifted_ordered m HE HM z). exact E.
Qed.
Print Assumptions C80_bayes_classes.

Theorem C80_boosting_classes : forall (m : libm) (L : Type) (g : gb (F64 m) L) X S P n, exp_nonneg m -> exp_monotone m ->
  gb_loss g = LMulti n -> Forall (fun s => length s = n) S -> gb_raw_predict g X = Ok S -> gb_predict_proba g X = Ok P -> Forall2 ordered_as S P.
Proof.
  intros m L g X S P n HE HM HL Len ES EP. unfold gb_predict_proba in EP. rewrite ES in EP. cbn [bind] in EP. rewrite HL in EP. cbn [raw_to_proba] in EP.
  inv_bind EP. inv_bind EP. inv_bind EP. apply mapM_Forall2 in EP. apply Forall2_nth_error. destruct (proj1 (Forall2_nth_error _ _ _) EP) as [LP FP]. unfold range in LP, FP. rewrite seq_length in LP. split; auto.
  intros i s p Hs Hp. assert (Hi : i < length S) by (apply nth_error_Some; congruence).
  assert (R : nth_error (seq 0 (length S)) i = Some i) by (rewrite nth_error_seq; destruct (Nat.ltb_spec i (length S)); [f_equal; lia|lia]). pose proof (FP i i p R Hp) as Q.
  rewrite Forall_forall in Len. pose proof (Len s (nth_error_In _ _ Hs)) as Ls.
  destruct (nth_error a1 i) as [z|] eqn:Ez.
  - apply (shifted_ordered m HE HM z). rewrite <- Q. transitivity (mapM (fun i0 => v <- lnth s i0 ;; safe_exp (sub v z)) (range n)).
    + rewrite <- Ls. symmetry. apply mapM_range_nth.
    + apply mapM_ext. intros k _. rewrite (proj2 (lnth_ok _ _ _) Hs), (proj2 (lnth_ok _ _ _) Ez). reflexivity.
  - destruct n as [|n].
    + cbn in Q. injection Q as <-. destruct s; [|discriminate]. split; auto. intros j k x y u w Hx. destruct j; discriminate.
    + exfalso. assert (Q' : exists v, nth_error s 0 = Some v) by (destruct s; [discriminate|cbn; eauto]). destruct Q' as [v Hv].
      cbn [range seq mapM] in Q. rewrite (proj2 (lnth_ok _ _ _) Hs) in Q. cbn [bind] in Q. rewrite (proj2 (lnth_ok _ _ _) Hv) in Q. cbn [bind] in Q. unfold lnth in Q at 1. rewrite Ez in Q. discriminate.
Qed.
Print Assumptions C80_boosting_classes.

(** * The label is that of a most probable class *)
Theorem C80_linear_label : forall (m : libm) (L : Type) (c : linear (F64 m) L) f X P out, exp_nonneg m -> exp_monotone m -> exp_at_0 m ->
  one_vs_rest c f \/ multinomial c f -> f X = Ok P -> linear_predict c X = Ok out -> Forall (Forall (fun x => isnan x = false)) P ->
  (forall s, decision_function c X = Ok (D1 s) -> Forall (fun x => is_finite x = true) s) ->
  (forall S, decision_function c X = Ok (D2 S) -> Forall (Forall (fun x => isnan x = false)) S) ->
  Forall2 (fun p y => exists i, nth_error (l_classes c) i = Some y /\ most_probable p i) P out.
Proof.
  intros m L c f X P out HE HM H0 H EP EO NP F1 F2.
  destruct (decision_function c X) as [[s|S]|e] eqn:D.
  - specialize (F1 s eq_refl). clear F2. unfold linear_predict in EO. rewrite D in EO. cbn [bind] in EO.
    assert (Two : forall p0 p1 : F64 m, leb p0 p1 = true -> most_probable [p0; p1] 1).
    { intros p0 p1 Q. exists p1. split; auto. intros [|[|[|]]] w Hw Nw; try discriminate; injection Hw as <-; auto. apply (leb_refl (F64_ord m)); auto. }
    assert (One : forall p0 p1 : F64 m, leb p1 p0 = true -> most_probable [p0; p1] 0).
    { intros p0 p1 Q. exists p0. split; auto. intros [|[|[|]]] w Hw Nw; try discriminate; injection Hw as <-; auto. apply (leb_refl (F64_ord m)); auto. }
    assert (G : Forall2 (fun x p => exists p0 p1, p = [p0; p1] /\ (leb zero x = true -> leb p0 p1 = true) /\ (leb x zero = true -> leb p1 p0 = true)) s P).
    { destruct H as [H|H].
      - rewrite (ovr_route c f X H) in EP. unfold predict_proba_lr in EP. rewrite D in EP. cbn [bind] in EP. apply mapM_Forall2 in EP. clear EO D H NP.
        induction EP as [|x p s P Ep EP IH]; constructor; inversion F1; subst; auto. inv_bind Ep. injection Ep as <-. exists (sub one a), a. split; auto. split; intro Q.
        + eapply (expit_nonneg m HE HM H0 x); eauto.
        + eapply (expit_nonpos m HE HM H0 x); eauto.
      - rewrite (multi_route c f X H) in EP. rewrite D in EP. cbn [bind] in EP. apply mapM_Forall2 in EP. clear EO D H.
        induction EP as [|x p s P Ep EP IH]; constructor; inversion F1; inversion NP; subst; auto.
        destruct (sfmax_ordered m HE HM _ _ Ep) as [Lp Op]. destruct p as [|p0 [|p1 [|]]]; try discriminate Lp. exists p0, p1. split; auto.
        pose proof (Forall_inv H6) as N0. pose proof (Forall_inv (Forall_inv_tail H6)) as N1.
        assert (OZ : forall a b : F64 m, leb a b = true -> leb (opp b) (opp a) = true) by apply opp_anti.
        split; intro Q; [apply (Op 0 1 (opp x) x)|apply (Op 1 0 x (opp x))]; auto.
        + eapply (leb_trans (F64_ord m)); [apply OZ; exact Q|]. eapply (leb_trans (F64_ord m)); [|exact Q]. reflexivity.
        + eapply (leb_trans (F64_ord m)); [exact Q|]. eapply (leb_trans (F64_ord m)); [|apply OZ; exact Q]. reflexivity. }
    apply mapM_Forall2 in EO. clear EP NP D. revert out EO. induction G as [|x p s P (p0 & p1 & -> & Gp & Gn) G IH]; intros out EO; inversion EO; subst; constructor; inversion F1; subst; auto.
    apply lnth_ok in H3. change (gtb x zero) with (ltb zero x) in H3. destruct (ltb zero x) eqn:Zx.
    + exists 1. split; auto. apply Two. apply Gp. apply (ltb_leb (F64_ord m)). auto.
    + exists 0. split; auto. apply One. apply Gn. apply (nltb_leb (F64_ord m)); auto. apply fin_not_nan. auto.
  - specialize (F2 S eq_refl). clear F1. unfold linear_predict in EO. rewrite D in EO. cbn [bind] in EO. apply (pick_ok _ (F64_ord m)) in EO.
    pose proof (C80_linear_classes m L c f X S P HE HM H D EP) as O. clear EP D H.
    revert P out O NP EO. induction S as [|s S IH]; intros P out O NP EO; inversion O as [|? p ? P' O1 O']; subst; inversion EO as [|? y ? out' (i & Bi & Hi) EO']; subst; constructor; inversion NP; inversion F2; subst; auto.
    exists i. split; auto. eapply ordered_label; eauto.
  - exfalso. destruct H as [H|H]; [rewrite (ovr_route c f X H) in EP; unfold predict_proba_lr in EP|rewrite (multi_route c f X H) in EP]; rewrite D in EP; discriminate.
Qed.
Print Assumptions C80_linear_label.

Theorem C80_bayes_label : forall (m : libm) (L : Type) (n : nb (F64 m) L) X J P out, exp_nonneg m -> exp_monotone m ->
  issparse X = false -> X <> Arr [] -> jll n X = Ok J -> nb_predict_proba n X = Ok P -> nb_predict n X = Ok out ->
  Forall (Forall (fun x => isnan x = false)) J -> Forall (Forall (fun x => isnan x = false)) P ->
  Forall2 (fun p y => exists i, nth_error (nb_classes n) i = Some y /\ most_probable p i) P out.
Proof.
  intros m L n X J P out HE HM HX NE EJ EP EO NJ NP. pose proof (C80_bayes_classes m L n X J P HE HM HX NE EJ EP) as O.
  unfold nb_predict in EO. inv_bind EO. apply checked in E; auto. subst a. rewrite EJ in EO. cbn [bind] in EO. apply (pick_ok _ (F64_ord m)) in EO. clear EP EJ.
  revert P out O NP EO. induction J as [|s J IH]; intros P out O NP EO; inversion O as [|? p ? P' O1 O']; subst; inversion EO as [|? y ? out' (i & Bi & Hi) EO']; subst; constructor; inversion NP; inversion NJ; subst; auto.
  exists i. split; auto. eapply ordered_label; eauto.
Qed.
Print Assumptions C80_bayes_label.

(** Trees: no negative leaf count. *)
Theorem C80_tree_label : forall (m : libm) (L : Type) (t : tree (F64 m) L) X P out,
  Forall (Forall (fun x => leb zero x = true)) (t_value t) -> tree_predict_proba t X = Ok P -> tree_predict t X = Ok out -> Forall (Forall (fun x => isnan x = false)) P ->
  Forall2 (fun p y => exists i, nth_error (t_classes t) i = Some y /\ most_probable p i) P out.
Proof.
  intros m L t X P out HV EP EO NP. unfold tree_predict_proba, tree_predict in *. inv_bind EP. rewrite E in EO. cbn [bind] in EO. inv_bind EO. clear E.
  apply mapM_Forall2 in EP, E0, EO. revert P EP NP out a0 E0 EO.
  induction a as [|nd a IH]; intros P EP NP out a0 E0 EO; inversion EP as [|? p ? P' E1 EP']; subst; inversion E0 as [|? k0 ? ks E2 E0']; subst; inversion EO as [|? y ? out' E3 EO']; subst; constructor; inversion NP as [|? ? NP1 NP']; subst; [|eapply IH; eauto].
  unfold leaf_proba, leaf_pred in E1, E2. destruct (lget (t_value t) nd) as [v|] eqn:E; [|discriminate]. cbn [bind] in E1, E2. apply (argmax_iff (F64_ord m)) in E2. apply lnth_ok in E3. exists k0. split; [exact E3|].
  assert (G : Forall (fun x : F64 m => leb zero x = true) v). { apply Shapes.lget_In in E. rewrite Forall_forall in HV. auto. }
  assert (NA : Forall (fun x : F64 m => isnan x = false) v) by (eapply Forall_impl; [|exact G]; intros w Hw; apply (leb_nan (F64_ord m) _ _ Hw)).
  eapply ordered_label; [exact NA|exact NP1| |exact E2].
  apply mapM_Forall2 in E1. split; [symmetry; apply (Forall2_len _ _ _ E1)|]. destruct (proj1 (Forall2_nth_error _ _ _) E1) as [_ F].
  intros j k x0 y0 u w Hx Hy Le Hu Hw Nu Nw. eapply (div_keeps m (psum v) x0 y0); eauto; try (eapply F; eauto).
  apply (nn_psum m). eapply Forall_impl; [|exact G]. intros z Hz. left. exact Hz.
Qed.
Print Assumptions C80_tree_label.

(** XGBoost with objective multi:softprob: [S] holds, class by class, the
    scores of all samples. *)
Theorem C80_xgb_classes : forall (m : libm) (L : Type) (g : xgb (F64 m) L) X S P i p, exp_nonneg m -> exp_monotone m ->
  xg_objective g = lit "multi:softprob" -> issparse X = false -> X <> Arr [] -> xgb_scores g X = Ok S -> xgb_predict_proba g X = Ok P -> nth_error P i = Some p ->
  exists s, length s = length S /\ (forall k c, nth_error S k = Some c -> nth_error s k = nth_error c i) /\ ordered_as s p.
Proof.
  intros m L g X S P i p HE HM HO HX NE ES EP Hp. unfold xgb_predict_proba in EP. inv_bind EP. apply checked in E; auto. subst a.
  rewrite HO in EP. change (str_eqb (lit "multi:softprob") (lit "multi:softprob")) with true in EP. cbv iota in EP. rewrite ES in EP. cbn [bind] in EP.
  inv_bind EP. destruct (mapM_nth_inv _ _ _ _ _ EP Hp) as (i' & Hi & Q). unfold range in Hi. rewrite nth_error_seq in Hi.
  destruct (Nat.ltb_spec i a) as [Li|Li]; [|discriminate]. injection Hi as <-. cbn [Nat.add] in Q. inv_bind Q.
  pose proof (proj1 (mapM_Forall2 _ _ _) ES) as FS. pose proof (Forall2_len _ _ _ FS) as LS. rewrite zrange_length, Z.sub_0_r in LS.
  exists a0. pose proof (proj1 (mapM_Forall2 _ _ _) E0) as F0. split; [rewrite <- (Forall2_len _ _ _ F0), zrange_length, Z.sub_0_r; exact LS|].
  split; [|apply sfmax_ordered; auto].
  intros k c Hk. assert (Lk : k < length S) by (apply nth_error_Some; congruence).
  assert (Zk : nth_error (zrange 0 (xg_nclasses g)) k = Some (Z.of_nat k)).
  { rewrite nth_error_zrange. destruct (Z.ltb_spec (Z.of_nat k) (xg_nclasses g - 0)); [reflexivity|lia]. }
  destruct (mapM_nth _ _ _ _ _ E0 Zk) as (v & Hv & Ev). rewrite lget_nat, (proj2 (lnth_ok _ _ _) Hk) in Ev. cbn [bind] in Ev. apply lnth_ok in Ev. rewrite Hv, Ev. reflexivity.
Qed.
Print Assumptions C80_xgb_classes.

(** Cases that meet the hypotheses, with scores in both orders. *)
Example C80_ex_scaler : forall m : libm,
  Forall finite [one : F64 m; ofZ 3] /\ Forall (fun x => finite x /\ ltb zero x = true) [ofZ 2 : F64 m; ofZE 1 (-1)] /\
  (exists D, std_transform {| ss_mean_on := true; ss_std_on := true; ss_scale := Some [ofZ 2 : F64 m; ofZE 1 (-1)]; ss_mean := Some [one; ofZ 3] |} (ll [[one; zero]; [zero : F64 m; ofZ 7]]) = Ok (ll D)) /\
  leb (zero : F64 m) one = true.
Proof.
  intro m. split; [repeat constructor; vm_compute; reflexivity|]. split; [repeat constructor; vm_compute; reflexivity|]. split; [|vm_compute; reflexivity].
  edestruct (Scaling.C28_total m {| ss_mean_on := true; ss_std_on := true; ss_scale := Some [ofZ 2 : F64 m; ofZE 1 (-1)]; ss_mean := Some [one; ofZ 3] |} [one; ofZ 3] [ofZ 2 : F64 m; ofZE 1 (-1)] [[one; zero]; [zero : F64 m; ofZ 7]] 2 2) as (D & E & _);
    [split; repeat constructor|lia|intros _; split; auto|intros _; split; [auto|split; [auto|repeat constructor; intro Q; vm_compute in Q; discriminate]]|exists D; exact E].
Qed.
Example C80_ex_linear : forall m : libm,
  match decision_function (Linear.lin2 (A:=F64 m)) (ll [[one; one]; [opp one; one]]) with
  | Ok (D1 [x; y]) => is_finite x && is_finite y && ltb y x | _ => false end = true /\
  match decision_function (Linear.lin3 (A:=F64 m)) (ll [[one; one]; [opp one; one]]) with
  | Ok (D2 [[x; y; z]; _]) => is_finite x && is_finite y && is_finite z && ltb x z | _ => false end = true.
Proof. intro m. split; vm_compute; reflexivity. Qed.
Example C80_ex_bayes : forall m : libm,
  match jll (A:=F64 m) (Multinomial (Bayes.mnb1 one zero)) (ll [[f_ofZE 3 0 : F64 m]]) with
  | Ok [[x; y]] => is_finite x && is_finite y && negb (eqb x y) | _ => false end = true.
Proof. intro m. vm_compute. reflexivity. Qed.
Example C80_ex_libm : exp_nonneg crlibm /\ exp_monotone crlibm /\ exp_at_0 crlibm.
Proof. split; [apply cr_exp_nonneg|split; [apply cr_exp_monotone|apply cr_exp_0]]. Qed.
