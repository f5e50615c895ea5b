(** Facts about the public methods of every converted estimator. *)
From Coq Require Import String Lia.
From Verif Require Import Model.Py Model.Arith Model.Utils Model.Base Model.Hash Model.DictVec
  Model.Text Model.Tree Model.Ensemble Model.Xgb Model.Linear Model.NaiveBayes
  Model.Dummy Model.Preprocessing Model.Encoders Model.Impute Model.Pipeline Model.Est.
From Verif Require Import Spec.Pipeline Spec.Est Spec.Api Proofs.Lib Proofs.Pipeline Proofs.Est.

Section Ends.
  Context {A : arith} {L V : Type} (veq : V -> V -> bool) (vnum : A -> V) (U : textlib).
  Implicit Types e z : est A L V.
  Notation ob := (obj_of veq vnum U).

  Definition follows {T} (os : list (obj A L V)) (fe fz : option (data A V -> res T * data A V)) : Prop :=
    match fe, fz with
    | None, None => True
    | Some f, Some g => forall X p, fst (f X) = Ok p <-> exists Z, applied os X Z /\ fst (g Z) = Ok p
    | _, _ => False
    end.
  Lemma applied_fun : forall (os : list (obj A L V)) X Y Z, applied os X Y -> applied os X Z -> Y = Z.
  Proof.
    intros os X Y Z H. revert Z. induction H as [X|o rest f X Y Z Ef Ev H IH]; intros Z' H'; inversion H'; subst; auto.
    rewrite Ef in H2. injection H2 as <-. rewrite Ev in H3. injection H3 as <-. auto.
  Qed.
  Lemma applied_app : forall (os os' : list (obj A L V)) X Z, applied (os ++ os') X Z <-> exists Y, applied os X Y /\ applied os' Y Z.
  Proof.
    induction os as [|o os IH]; intros os' X Z; cbn [app].
    - split; [intro H; exists X; split; [constructor|auto]|]. intros (Y & H & H'). inversion H; subst; auto.
    - split.
      + intro H. inversion H; subst. apply IH in H6. destruct H6 as (Y' & H6 & H7). exists Y'. split; auto. econstructor; eauto.
      + intros (Y & H & H'). inversion H; subst. econstructor; eauto. apply IH. eauto.
  Qed.
  Lemma follows_pipe : forall T (get : obj A L V -> option (data A V -> res T * data A V)) pre nm o os fz,
    follows os (get o) fz -> follows (map snd pre ++ os) (pipe_method get (pre ++ [(nm, o)])) fz.
  Proof.
    intros T get pre nm o os fz H. destruct (get o) as [f|] eqn:E.
    - destruct (pipe_method_some get pre nm o f E) as (g & Eg & Hg). rewrite Eg. destruct fz as [h|]; [|contradiction].
      intros X p. rewrite (proj1 (Hg X)). split.
      + intros (Y & HY & Hp). apply H in Hp. destruct Hp as (Z & HZ & Hp). exists Z. split; auto. apply applied_app. eauto.
      + intros (Z & HZ & Hp). apply applied_app in HZ. destruct HZ as (Y & HY & HZ). exists Y. split; auto. apply H. eauto.
    - rewrite (proj2 (pipe_method_none get pre nm o) E). destruct fz; [contradiction|exact I].
  Qed.
  Lemma ends_follow : forall e z, ends_in e z -> exists os,
    o_classes (ob e) = o_classes (ob z) /\ follows os (o_predict (ob e)) (o_predict (ob z)) /\
    follows os (o_proba (ob e)) (o_proba (ob z)) /\ follows os (o_log_proba (ob e)) (o_log_proba (ob z)).
  Proof.
    intros e z H. induction H as [z|pre nm e z H (os & H0 & H1 & H2 & H3)].
    - assert (F : forall T (f : option (data A V -> res T * data A V)), follows [] f f).
      { intros T [f|]; [|exact I]. intros X p. split; [intro E; exists X; split; [constructor|auto]|]. intros (Z & HZ & E). inversion HZ; subst; auto. }
      exists []. repeat split; apply F.
    - exists (map snd (map (fun ne => (fst ne, ob (snd ne))) pre) ++ os). cbn [obj_of]. rewrite map_app. cbn [map fst snd].
      cbn [pipeline o_predict o_proba o_log_proba o_classes]. rewrite last_step_app. split; [exact H0|].
      split; [|split]; apply (follows_pipe _ _ _ nm (ob e)); auto.
  Qed.

  (** C65. *)
  Lemma mapM_rel : forall S T (f : S -> res T) (R : S -> T -> Prop), (forall x y, f x = Ok y <-> R x y) ->
    forall l r, mapM f l = Ok r <-> Forall2 R l r.
  Proof. intros S T f R H l r. rewrite mapM_Forall2. apply Forall2_iff. auto. Qed.
  Lemma safe_log_of : forall x y : A, safe_log x = Ok y <-> log_of x y.
  Proof.
    intros x y. unfold safe_log, log_of. destruct (eqb x zero); [split; congruence|]. destruct (ltb x zero); [split; congruence|]. tauto.
  Qed.
  Lemma safe_exp_of : forall x y : A, safe_exp x = Ok y <-> exp_of x y.
  Proof.
    intros x y. unfold safe_exp, exp_of. destruct (expv x) as [r|x0]; [split; [left; congruence|intros [E|[E _]]; congruence]|].
    destruct x0; split; try discriminate; try (intros [E|[E _]]; discriminate).
    - right. split; congruence.
    - intros [E|[_ ->]]; [discriminate|reflexivity].
  Qed.
  Lemma log_rows : forall P LP : list (list A), mapM (mapM safe_log) P = Ok LP <-> Forall2 (Forall2 log_of) P LP.
  Proof. intros. apply mapM_rel. apply mapM_rel. apply safe_log_of. Qed.
  Lemma exp_rows : forall P LP : list (list A), mapM (mapM safe_exp) P = Ok LP <-> Forall2 (Forall2 exp_of) P LP.
  Proof. intros. apply mapM_rel. apply mapM_rel. apply safe_exp_of. Qed.
  Lemma apply_rows : forall T (P : list (list A)) (f : A -> res T), apply_2d (ll P) f = mapM (mapM f) P.
  Proof. intros. unfold apply_2d, ll. cbn [issparse items bind]. rewrite mapM_map. apply mapM_ext. intros; reflexivity. Qed.

  Definition logs_match (o : obj A L V) : Prop := forall f g X LP, o_proba o = Some f -> o_log_proba o = Some g ->
    (fst (g X) = Ok LP <-> exists P, fst (f X) = Ok P /\ Forall2 (Forall2 log_of) P LP).
  Lemma logs_classifier : forall p pp lp cl,
    (forall X LP, lp X = Ok LP <-> exists P, pp X = Ok P /\ mapM (mapM safe_log) P = Ok LP) ->
    logs_match (classifier (V:=V) p (Some pp) (Some lp) cl).
  Proof.
    intros p pp lp cl H f g X LP Ef Eg. cbn in Ef, Eg. injection Ef as <-. injection Eg as <-. cbn [fst]. rewrite H.
    split; intros (P & E1 & E2); exists P; (split; [auto|apply log_rows; auto]).
  Qed.
  Lemma logs_leaf : forall e, match e with EPipeline _ | ENb _ => False | _ => True end -> logs_match (ob e).
  Proof.
    intros e H. destruct e; try contradiction; try (intros f0 g0 X0 LP0 Ef0 Eg0; discriminate); cbn [obj_of].
    - apply logs_classifier. intros X LP. unfold tree_predict_log_proba. apply bind_ok.
    - apply logs_classifier. intros X LP. unfold bagging_predict_log_proba. rewrite bind_ok. split; intros (P & E & E'); exists P; rewrite apply_rows in *; auto.
    - apply logs_classifier. intros X LP. unfold gb_predict_log_proba. rewrite bind_ok. split; intros (P & E & E'); exists P; rewrite apply_rows in *; auto.
    - destruct k.
      + apply logs_classifier. intros X LP. unfold logistic_predict_log_proba. apply bind_ok.
      + destruct (is_ok (check_proba c)) eqn:EC; [|intros f g X LP Ef; discriminate].
        apply logs_classifier. intros X LP. unfold sgd_predict_log_proba, sgd_predict_proba.
        destruct (check_proba c) as [[]|]; [|discriminate]. cbn [bind]. apply bind_ok.
      + intros f g X LP Ef; discriminate.
    - intros f g X LP Ef Eg. injection Ef as <-. injection Eg as <-. cbn [fst]. unfold dummy_predict_log_proba. rewrite bind_ok.
      split; intros (P & E & E'); exists P; rewrite apply_rows in *; (split; [auto|apply log_rows; auto]).
  Qed.
  Lemma logs_ends : forall e z, ends_in e z -> logs_match (ob z) -> logs_match (ob e).
  Proof.
    intros e z HE H f g X LP Ef Eg. destruct (ends_follow e z HE) as (os & _ & _ & H2 & H3). rewrite Ef in H2. rewrite Eg in H3.
    destruct (o_proba (ob z)) as [f0|] eqn:Ef0; [|contradiction]. destruct (o_log_proba (ob z)) as [g0|] eqn:Eg0; [|contradiction].
    cbn in H2, H3. rewrite H3. split.
    - intros (Z & HZ & E). apply (H f0 g0 Z LP Ef0 Eg0) in E. destruct E as (P & E & HP). exists P. split; auto. apply H2. eauto.
    - intros (P & E & HP). apply H2 in E. destruct E as (Z & HZ & E). exists Z. split; auto. apply (H f0 g0 Z LP Ef0 Eg0). eauto.
  Qed.
  Lemma exps_ends : forall e m, ends_in e (ENb m) -> forall f g X P, o_proba (ob e) = Some f -> o_log_proba (ob e) = Some g ->
    (fst (f X) = Ok P <-> exists LP, fst (g X) = Ok LP /\ Forall2 (Forall2 exp_of) LP P).
  Proof.
    intros e m HE f g X P Ef Eg. destruct (ends_follow e _ HE) as (os & _ & _ & H2 & H3). rewrite Ef in H2. rewrite Eg in H3.
    cbn in H2, H3. rewrite H2. split.
    - intros (Z & HZ & E). unfold nb_predict_proba in E. apply bind_ok in E. destruct E as (LP & E & E'). exists LP. split; [apply H3; eauto|]. apply exp_rows; auto.
    - intros (LP & E & HP). apply H3 in E. destruct E as (Z & HZ & E). exists Z. split; auto. unfold nb_predict_proba. apply bind_ok. exists LP. split; auto. apply exp_rows; auto.
  Qed.

  (** C66. *)
  Lemma mapM_lnth_in : forall (cl : list L) is l, mapM (lnth cl) is = Ok l -> Forall (fun x => In x cl) l.
  Proof.
    intros cl is l E. apply mapM_Forall2 in E. induction E as [|i x is l Ex E IH]; constructor; auto. apply lnth_ok in Ex. eapply nth_error_In; eauto.
  Qed.
  Lemma mapM_bind_in : forall S (f : S -> res nat) (cl : list L) P l, mapM (fun a => i <- f a ;; lnth cl i) P = Ok l -> Forall (fun x => In x cl) l.
  Proof.
    intros S f cl P l E. apply mapM_Forall2 in E. induction E as [|i x is l Ex E IH]; constructor; auto.
    apply bind_ok in Ex. destruct Ex as (k & _ & Ex). apply lnth_ok in Ex. eapply nth_error_In; eauto.
  Qed.
  Lemma leaf_labels : forall e, match e with EPipeline _ => False | _ => True end -> forall f X p, o_predict (ob e) = Some f -> fst (f X) = Ok p ->
    match o_classes (ob e) with
    | Some cl => exists l, p = PLab l /\ Forall (fun x => In x cl) l
    | None => match p with PLab _ => False | _ => True end
    end.
  Proof.
    intros e H f X p Ef E.
    assert (KK : forall (g : arr A -> res (list L)) pp lp cl, o_predict (classifier (V:=V) g pp lp cl) = Some f ->
       (forall Y l, g Y = Ok l -> Forall (fun x => In x cl) l) -> exists l, p = PLab l /\ Forall (fun x => In x cl) l).
    { intros g pp lp cl Eg Hg. cbn in Eg. injection Eg as <-. cbn [fst] in E. iv E. injection E0 as <-. eauto. }
    destruct e; try contradiction; try discriminate; cbn [obj_of classifier o_classes] in *.
    - eapply KK; [exact Ef|]. intros Y l El. unfold tree_predict in El. iv El. iv E0. eapply mapM_lnth_in; eauto.
    - injection Ef as <-. cbn [fst] in E. iv E. injection E0 as <-. exact I.
    - eapply KK; [exact Ef|]. intros Y l El. unfold bagging_predict in El. iv El. iv E0. eapply mapM_lnth_in; eauto.
    - eapply KK; [exact Ef|]. intros Y l El. unfold gb_predict in El. iv El. eapply mapM_bind_in; eauto.
    - eapply KK; [exact Ef|]. intros Y l El. unfold xgb_predict in El. iv El. eapply mapM_bind_in; eauto.
    - assert (HL : forall Y l, linear_predict c Y = Ok l -> Forall (fun x => In x (l_classes c)) l).
      { intros Y l El. unfold linear_predict in El. iv El. destruct x as [d|M].
        - apply (mapM_bind_in _ (fun x => Ok (if gtb x zero then 1 else 0)) (l_classes c) d). exact E0.
        - eapply mapM_bind_in; eauto. }
      destruct k; cbn [classifier o_classes]; (eapply KK; [exact Ef|exact HL]).
    - eapply KK; [exact Ef|]. intros Y l El. unfold nb_predict in El. iv El. iv E0. eapply mapM_bind_in; eauto.
    - injection Ef as <-. cbn [fst] in E. iv E. injection E0 as <-. exact I.
  Qed.
  Lemma labels_ends : forall e z, ends_in e z -> match z with EPipeline _ => False | _ => True end -> forall f X p, o_predict (ob e) = Some f -> fst (f X) = Ok p ->
    match o_classes (ob e) with
    | Some cl => exists l, p = PLab l /\ Forall (fun x => In x cl) l
    | None => match p with PLab _ => False | _ => True end
    end.
  Proof.
    intros e z HE Hz f X p Ef E. destruct (ends_follow e z HE) as (os & H0 & H1 & _). rewrite H0. rewrite Ef in H1.
    destruct (o_predict (ob z)) as [g|] eqn:Eg; [|contradiction]. apply H1 in E. destruct E as (Z & HZ & E). eapply leaf_labels; eauto.
  Qed.
  (** Every pipeline with a prediction method ends in something else than a pipeline. *)
  Lemma ends_total : forall e, (forall m, ~ offers (ob e) m) \/ exists z, ends_in e z /\ match z with EPipeline _ => False | _ => True end.
  Proof.
    apply (est_rec' (fun e => (forall m, ~ offers (ob e) m) \/ exists z, ends_in e z /\ match z with EPipeline _ => False | _ => True end)).
    - intros. right. eexists. split; [constructor|exact I].
    - intros. right. eexists. split; [constructor|exact I].
    - intros steps H. destruct (snoc_cases _ steps) as [->|(l & [nm o] & ->)].
      + left. intros [| | |] K; apply K; reflexivity.
      + rewrite Forall_app in H. destruct H as [_ H]. apply Forall_inv in H. cbn [snd] in H. destruct H as [H|(z & H & Hz)].
        * left. cbn [obj_of]. rewrite map_app. cbn [map fst snd]. intros m K. apply (H m). destruct m; cbn [offers pipeline o_transform o_predict o_proba o_log_proba] in K |- *;
            [rewrite last_step_app in K; destruct (o_transform (ob o)); [discriminate|exact K]| | |];
            intro Q; apply K; apply pipe_method_none; exact Q.
        * right. exists z. split; auto. constructor; auto.
    - intros. right. eexists. split; [constructor|exact I].
    - intros e He. right. exists e. split; [constructor|]. destruct e; auto.
  Qed.
End Ends.
