(** Facts about every converted estimator, by induction on its structure. *)
From Coq Require Import String.
From Verif Require Import Model.Py Model.Arith Model.Utils Model.Base Model.Hash Model.DictVec
  Model.Text Model.Tree Model.Ensemble Model.Xgb Model.Linear Model.NaiveBayes
  Model.Dummy Model.Preprocessing Model.Encoders Model.Impute Model.Pipeline Model.Est.
From Verif Require Import Spec.Pipeline Spec.Est Proofs.Lib Proofs.Pipeline.

Ltac iv H :=
  let x := fresh "x" in let R := fresh "E" in
  apply bind_ok in H; destruct H as (x & H & R).

Section Est.
  Context {A : arith} {L V : Type}.
  Implicit Types e : est A L V.

  (** Structural induction through the lists of members. *)
  Section Ind.
    Variable P : est A L V -> Prop.
    Hypothesis Hbag : forall ms fs cl, Forall P ms -> P (EBagging ms fs cl).
    Hypothesis Hgb : forall ts init lr nf ls cl,
      match init with Some i => P i | None => True end -> P (EGb ts init lr nf ls cl).
    Hypothesis Hpipe : forall steps, Forall (fun ne => P (snd ne)) steps -> P (EPipeline steps).
    Hypothesis Hunion : forall ms w, Forall (fun ne => P (snd ne)) ms -> P (EUnion ms w).
    Hypothesis Hleaf : forall e,
      match e with EBagging _ _ _ | EGb _ _ _ _ _ _ | EPipeline _ | EUnion _ _ => False | _ => True end -> P e.

    Fixpoint est_rec' e : P e.
    Proof.
      destruct e; try (apply Hleaf; exact I).
      - apply Hbag. induction members as [|m ms IH]; constructor; [apply est_rec'|apply IH].
      - apply Hgb. destruct init as [i|]; [apply est_rec'|exact I].
      - apply Hpipe. induction steps as [|m ms IH]; constructor; [apply est_rec'|apply IH].
      - apply Hunion. induction members as [|m ms IH]; constructor; [apply est_rec'|apply IH].
    Defined.
  End Ind.

  (** C43: no method changes [X]. *)
  Definition keeps (o : obj A L V) (X : data A V) : Prop := forall m, left_by o m X = X.

  Lemma run_some_keeps : forall (steps : list (obj A L V)) cur X,
    t_after (run_steps steps (Some cur) X) = X.
  Proof.
    induction steps as [|o steps IH]; intros cur X; [reflexivity|]. cbn [run_steps].
    destruct (t_out (call_transform o cur)) as [[y|]|e]; auto.
  Qed.
  Lemma run_keeps : forall (steps : list (obj A L V)) X, Forall (fun o => keeps o X) steps ->
    t_after (run_steps steps None X) = X.
  Proof.
    intros steps X H. induction H as [|o steps Ho H IH]; [reflexivity|]. cbn [run_steps].
    assert (E : t_after (call_transform o X) = X).
    { specialize (Ho Transform). unfold left_by in Ho. unfold call_transform. destruct (o_transform o); auto. }
    destruct (t_out (call_transform o X)) as [[y|]|e]; rewrite E; auto. apply run_some_keeps.
  Qed.
  Lemma init_steps_incl : forall (P : obj A L V -> Prop) steps,
    Forall (fun ne => P (snd ne)) steps -> Forall P (init_steps steps).
  Proof.
    intros P steps H. unfold init_steps. rewrite Forall_map. revert H. generalize (List.length steps - 1).
    intros n H. revert n. induction H; intros [|n]; cbn; constructor; auto.
  Qed.
  Lemma last_step_in : forall (P : obj A L V -> Prop) steps o,
    Forall (fun ne => P (snd ne)) steps -> last_step steps = Some o -> P o.
  Proof.
    intros P steps o H E. unfold last_step in E. destruct (nth_error steps _) as [x|] eqn:N; [|discriminate].
    injection E as <-. rewrite Forall_forall in H. apply H. eapply nth_error_In; eauto.
  Qed.

  Lemma method_keeps : forall T (get : obj A L V -> option (data A V -> res T * data A V)) steps X,
    Forall (fun ne => keeps (snd ne) X) steps ->
    (forall o f, last_step steps = Some o -> get o = Some f -> snd (f X) = X) ->
    forall f, pipe_method get steps = Some f -> snd (f X) = X.
  Proof.
    intros T get steps X H HL f E. unfold pipe_method in E. destruct (last_step steps) as [o|] eqn:El; [|discriminate].
    destruct (get o) as [g|] eqn:Eg; [|discriminate]. injection E as <-.
    pose proof (run_keeps (init_steps steps) X (init_steps_incl (fun o => keeps o X) _ H)) as R. cbv zeta.
    destruct (t_out (run_steps (init_steps steps) None X)) as [[y|]|e]; cbn [snd]; auto.
    rewrite R. eapply HL; eauto.
  Qed.
  Lemma pipeline_keeps : forall steps X, Forall (fun ne => keeps (snd ne) X) steps -> keeps (pipeline steps) X.
  Proof.
    intros steps X H m. destruct m; unfold left_by, pipeline; cbn [o_transform o_predict o_proba o_log_proba].
    - destruct (last_step steps) as [o|] eqn:El; auto. destruct (o_transform o); auto. apply run_keeps. rewrite Forall_map. auto.
    - destruct (pipe_method o_predict steps) as [f|] eqn:E; auto. eapply method_keeps; eauto.
      intros o g El Eg. pose proof (last_step_in (fun o => keeps o X) _ _ H El Predict) as K. unfold left_by in K. rewrite Eg in K. auto.
    - destruct (pipe_method o_proba steps) as [f|] eqn:E; auto. eapply method_keeps; eauto.
      intros o g El Eg. pose proof (last_step_in (fun o => keeps o X) _ _ H El PredictProba) as K. unfold left_by in K. rewrite Eg in K. auto.
    - destruct (pipe_method o_log_proba steps) as [f|] eqn:E; auto. eapply method_keeps; eauto.
      intros o g El Eg. pose proof (last_step_in (fun o => keeps o X) _ _ H El PredictLogProba) as K. unfold left_by in K. rewrite Eg in K. auto.
  Qed.

  Lemma all_keeps : forall (ms : list (obj A L V * option A)) X, Forall (fun ow => keeps (fst ow) X) ms ->
    snd (transform_all ms X) = X.
  Proof.
    intros ms X H. induction H as [|[o w] ms Ho H IH]; [reflexivity|]. cbn [transform_all]. unfold transform_one.
    assert (E : t_after (call_transform o X) = X).
    { specialize (Ho Transform). unfold left_by in Ho. cbn [fst] in Ho. unfold call_transform. destruct (o_transform o); auto. }
    rewrite E. destruct (match w with Some _ => _ | None => _ end); auto.
    destruct (transform_all ms X) as [[ys|e] X'']; auto.
  Qed.
  Lemma union_keeps : forall ms w X, Forall (fun ne => keeps (snd ne) X) ms -> keeps (feature_union ms w) X.
  Proof.
    intros ms w X H m. destruct m; try reflexivity. unfold left_by, feature_union. cbn [o_transform].
    unfold union_transform. destruct (check_data X) as [X1|e] eqn:EC; [|reflexivity].
    destruct (transform_all (weighted ms w) X1) as [r X2] eqn:ET. cbn [t_after].
    assert (HX : X1 = X \/ X1 = DNum ExnObj).
    { clear -EC. destruct X as [[[|? ?]|rows sz dt| |]|[s|[|d l]]|[d|[|d l]]|[[|? ?]|rows sz dt| |]]; cbn in EC; try discriminate; injection EC as <-; auto. }
    destruct HX as [->| ->]; [|reflexivity].
    assert (E2 : X2 = X).
    { change X2 with (snd (r, X2)). rewrite <- ET. apply all_keeps. unfold weighted. rewrite Forall_map. cbn [fst].
      exact H. }
    subst X2. destruct X as [[| | |]| | |]; reflexivity.
  Qed.

  Lemma tfidf_keeps : forall (t : tfidf A) X,
    tf_use_idf t = false \/ no_dict_rows (V:=V) (DNum X) -> snd (tfidf_transform t X) = X.
  Proof.
    intros t X H. unfold tfidf_transform. destruct (check_array X HAllow) as [X1|e] eqn:EC; [|reflexivity].
    cbn [bind]. destruct (shape X1) as [[n|n m]|e] eqn:ES; cbn [bind]; auto.
    assert (X1 = X) as ->.
    { destruct X as [[|? ?]|rows sz dt| |]; cbn in EC; try discriminate; injection EC as <-; auto. discriminate ES. }
    destruct (tf_sublinear t); auto.
    destruct (tf_use_idf t).
    - destruct H as [|H]; [discriminate|]. destruct (match m with Some _ => _ | None => _ end); auto.
      destruct X as [l|rows sz dt| |]; [|elim H|discriminate EC|discriminate EC]. cbn in H. cbn [items].
      destruct l as [|[x|r|d] l]; [discriminate EC| | |elim (H d); left; auto]; reflexivity.
    - cbn. destruct (tf_norm t); auto.
  Qed.

  Theorem est_keeps : forall (veq : V -> V -> bool) vnum U e X,
    (forall t, part e (ETfidf t) -> tf_use_idf t = false \/ no_dict_rows X) ->
    keeps (obj_of veq vnum U e) X.
  Proof.
    intros veq vnum U e X. revert e. apply (est_rec' (fun e => (forall t, part e (ETfidf t) -> _) -> keeps (obj_of veq vnum U e) X)).
    - intros ms fs cl _ _ m. destruct m; reflexivity.
    - intros ts init lr nf ls cl _ _ m. destruct m; reflexivity.
    - intros steps IH H. cbn [obj_of]. apply pipeline_keeps. rewrite Forall_map. cbn [snd].
      rewrite Forall_forall in *. intros [nm e] Hin. apply (IH _ Hin). intros t Ht. apply H. eapply part_pipeline; eauto.
    - intros ms w IH H. cbn [obj_of]. apply union_keeps. rewrite Forall_map. cbn [snd].
      rewrite Forall_forall in *. intros [nm e] Hin. apply (IH _ Hin). intros t Ht. apply H. eapply part_union; eauto.
    - intros e He H m. destruct e; try contradiction; destruct m; try reflexivity.
      + destruct k; reflexivity.
      + destruct k; reflexivity.
      + destruct k; try reflexivity. cbn [obj_of]. destruct (is_ok (check_proba c)); reflexivity.
      + destruct k; try reflexivity. cbn [obj_of]. destruct (is_ok (check_proba c)); reflexivity.
      + cbn. unfold tfidf_method. destruct X as [X| | |]; auto.
        pose proof (tfidf_keeps t X (H t (part_self _))) as K. destruct (tfidf_transform t X) as [r X'].
        cbn in *. congruence.
  Qed.

  (** C08: nothing comes out of nothing. *)
  Definition starves (o : obj A L V) : Prop := forall X, nothing X ->
    (forall f Y, o_transform o = Some f -> t_value (f X) = Ok Y -> nothing Y) /\
    (forall f p, o_predict o = Some f -> fst (f X) = Ok p -> no_preds p) /\
    (forall f P, o_proba o = Some f -> fst (f X) = Ok P -> P = []) /\
    (forall f P, o_log_proba o = Some f -> fst (f X) = Ok P -> P = []).

  Lemma nothing_num : forall X : data A V, nothing X ->
    as_num X = Arr [] \/ as_num X = ExnObj \/ as_num X = NotList.
  Proof. intros X [->|[->|[->|[->|[->|[->| ->]]]]]]; cbn; auto. Qed.
  Lemma nothing_sized : forall X : data A V, nothing X ->
    as_sized X = Arr [] \/ as_sized X = ExnObj \/ as_sized X = NotList.
  Proof. intros X [->|[->|[->|[->|[->|[->| ->]]]]]]; cbn; auto. Qed.
  Lemma nothing_no_dicts : forall X : data A V, nothing X -> no_dict_rows X.
  Proof. intros X [->|[->|[->|[->|[->|[->| ->]]]]]]; cbn; auto. Qed.

  (** [hungry f]: [f] finds no row to work on. *)
  Definition hungry {T} (f : arr A -> res (list T)) : Prop :=
    forall Y l, (Y = Arr [] \/ Y = ExnObj \/ Y = NotList) -> f Y = Ok l -> l = [].

  Lemma mapM_nil : forall S T (f : S -> res T) l out, mapM f l = Ok out -> l = [] -> out = [].
  Proof. intros S T f l out E ->. cbn in E. congruence. Qed.
  Lemma hungry_mapM : forall S T (g : arr A -> res (list S)) (f : S -> res T),
    hungry g -> hungry (fun X => l <- g X ;; mapM f l).
  Proof. intros S T g f H Y l HY E. iv E. eapply mapM_nil; eauto. Qed.
  Lemma hungry_apply : forall T (g : arr A -> res (list (list A))) (f : A -> res T),
    hungry g -> hungry (fun X => l <- g X ;; apply_2d (ll l) f).
  Proof. intros T g f H Y l HY E. iv E. apply (H Y x HY) in E. subst x. cbn in E0. congruence. Qed.

  Lemma hungry_leaves : forall t : tree A L, hungry (leaves t).
  Proof. intros t Y l [->|[->| ->]] E; discriminate. Qed.
  Lemma hungry_decision : forall (c : linear A L) Y, (Y = Arr [] \/ Y = ExnObj \/ Y = NotList) ->
    exists x : exn, decision_function c Y = Err x.
  Proof.
    intros c Y H. unfold decision_function. destruct H as [->|[->| ->]]; cbn [check_array bind]; eauto.
    destruct (shape1 (ll (l_coef c))); cbn; eauto.
  Qed.
  Lemma hungry_bagging : forall b : bagging A L, Forall hungry (b_members b) -> hungry (bagging_predict_proba b).
  Proof.
    intros b H Y l HY E. unfold bagging_predict_proba in E. iv E. iv E0.
    assert (x = []) as ->.
    { unfold member_proba in E. iv E. iv E2. iv E3.
      assert (HX : x3 = Arr [] \/ x3 = ExnObj \/ x3 = NotList).
      { unfold feat_slice in E3. destruct x2 as [fs|]; [|injection E3 as <-; auto].
        iv E3. iv E5. injection E6 as <-. destruct HY as [->|[->| ->]]; cbn in E3; try discriminate.
        injection E3 as <-. cbn in E5. injection E5 as <-. auto. }
      rewrite Forall_forall in H. rewrite lnth_ok in E. apply nth_error_In in E. apply (H _ E x3 x HX E4). }
    assert (x0 = []) as ->.
    { destruct (List.length (b_members b) - 1) as [|n]; cbn [seq foldM] in E0; [injection E0 as <-; auto|].
      iv E0. iv E0. cbn in E3. discriminate. }
    cbn in E1. congruence.
  Qed.
  Lemma hungry_proba : forall o : obj A L V, starves o -> hungry (proba_of o).
  Proof.
    intros o H Y l HY E. unfold proba_of in E. destruct (o_proba o) as [f|] eqn:Ef; [|discriminate].
    assert (HX : nothing (DNum Y : data A V)) by (unfold nothing; destruct HY as [->|[->| ->]]; tauto).
    apply (proj1 (proj2 (proj2 (H _ HX))) f l Ef E).
  Qed.
  Lemma hungry_gb : forall g : gb A L, hungry (gb_predict_proba g).
  Proof. intros g Y l [->|[->| ->]] E; discriminate. Qed.
  Lemma hungry_xgb : forall g : xgb A L, hungry (xgb_predict_proba g).
  Proof.
    intros g Y l [->|[->| ->]] E; try discriminate. unfold xgb_predict_proba in E. cbn [check_array bind] in E.
    destruct (str_eqb _ _); [iv E; discriminate|]. destruct (str_eqb _ _); discriminate.
  Qed.
  Lemma hungry_jll : forall (m : nb A L) h, hungry (fun X => X' <- check_array X h ;; jll m X').
  Proof.
    intros m h Y l [->|[->| ->]] E; try discriminate. cbn [check_array bind] in E.
    destruct m as [g|d|d]; try discriminate. cbn [jll items] in E. destruct (g_classes g) eqn:Eg.
    - unfold gaussian_jll in E. rewrite Eg in E. cbn in E. congruence.
    - iv E. iv E0. iv E1. iv E2. discriminate.
  Qed.
  Lemma hungry_nb_log : forall m : nb A L, hungry (nb_predict_log_proba m).
  Proof.
    intros m Y l HY E. unfold nb_predict_log_proba in E. iv E. iv E0. iv E1. injection E2 as <-.
    assert (x0 = []) as ->; [|reflexivity]. apply (hungry_jll m HError Y); auto. rewrite E. auto.
  Qed.

  Lemma classifier_starves : forall p pp lp cl,
    hungry p -> (forall f, pp = Some f -> hungry f) -> (forall f, lp = Some f -> hungry f) ->
    starves (classifier (V:=V) p pp lp cl).
  Proof.
    intros p pp lp cl Hp Hpp Hlp X HX. apply nothing_num in HX. unfold classifier, reads.
    cbn [o_transform o_predict o_proba o_log_proba]. split; [discriminate|]. split; [|split].
    - intros f q E. injection E as <-. cbn [fst]. intro E. iv E. apply (Hp _ _ HX) in E. subst.
      injection E0 as <-. left; auto.
    - intros f q E. destruct pp as [g|]; [|discriminate]. injection E as <-. cbn [fst]. apply (Hpp g eq_refl). auto.
    - intros f q E. destruct lp as [g|]; [|discriminate]. injection E as <-. cbn [fst]. apply (Hlp g eq_refl). auto.
  Qed.
  Lemma transformer_starves : forall t : data A V -> tres A V,
    (forall X Y, nothing X -> Pipeline.t_value (t X) = Ok Y -> nothing Y) -> starves (transformer (Some t)).
  Proof.
    intros t H X HX. unfold transformer. cbn [o_transform o_predict o_proba o_log_proba].
    split; [|split; [discriminate|split; discriminate]]. intros f Y E. injection E as <-. apply H; auto.
  Qed.
  Lemma fresh_starves : forall f : data A V -> res (arr A),
    (forall X, nothing X -> (exists x : exn, f X = Err x) \/ f X = Ok (Arr [])) -> starves (transformer (fresh f)).
  Proof.
    intros f H. unfold fresh. apply transformer_starves. intros X Y HX E. unfold Pipeline.t_value in E. cbn [t_out] in E.
    destruct (H X HX) as [[e Ee]|Ee]; rewrite Ee in E; cbn in E; [discriminate|]. injection E as <-. unfold nothing; auto.
  Qed.

  Lemma normalize_exn : forall nm, exists x : exn, normalize_pure (ExnObj : arr A) nm 1 = Err x.
  Proof.
    intro nm. unfold normalize_pure, normalize_full. cbn [issparse].
    destruct (guard _ _); cbn [bind]; eauto. destruct (guard _ _); cbn [bind]; eauto. cbn. eauto.
  Qed.
  Lemma analyzer_other : forall U c an, build_analyzer U c = Ok an -> exists x : exn, an DocOther = Err x.
  Proof.
    intros U c an E. unfold build_analyzer in E. iv E.
    destruct (str_eqb _ _); [injection E0 as <-; cbn; eauto|].
    destruct (str_eqb _ _); [injection E0 as <-; cbn; eauto|].
    destruct (str_eqb _ _); [|discriminate]. iv E0. injection E1 as <-. cbn. eauto.
  Qed.
  Lemma nothing_docs : forall X : data A V, nothing X -> as_docs X = RawDocs [] \/ as_docs X = RawDocs [DocOther].
  Proof. intros X [->|[->|[->|[->|[->|[->| ->]]]]]]; cbn; auto. Qed.
  Lemma count_nothing : forall U c (X : data A V), nothing X ->
    exists x : exn, count_transform (A:=A) U c (as_docs X) = Err x.
  Proof.
    intros U c X HX. destruct (nothing_docs X HX) as [->| ->]; cbn [count_transform]; unfold count_vocab;
      (destruct (build_analyzer U (cv_conf c)) as [an|] eqn:EA; cbn [bind mapM]; [|eauto]).
    - cbn. eauto.
    - destruct (analyzer_other _ _ _ EA) as [x ->]. cbn. eauto.
  Qed.
  Lemma hashvec_nothing : forall U h (X : data A V), nothing X ->
    exists x : exn, hashvec_transform (A:=A) U h (as_docs X) = Err x.
  Proof.
    intros U h X HX. destruct (nothing_docs X HX) as [->| ->]; cbn [hashvec_transform];
      (destruct (build_analyzer U (hv_conf h)) as [an|] eqn:EA; cbn [bind]; [|eauto]);
      unfold hasher_transform_string, hashing_transform; (destruct (validate_hasher _ _); cbn [bind]; [|eauto]);
      (destruct (guard _ _); cbn [bind]; [|eauto]).
    - cbn. eauto.
    - cbn [map mapM]. destruct (analyzer_other _ _ _ EA) as [x ->]. cbn. eauto.
  Qed.

  Lemma applied_nothing : forall (os : list (obj A L V)) X Z, Forall starves os -> nothing X -> applied os X Z -> nothing Z.
  Proof.
    intros os X Z H HX HA. induction HA as [X|o rest f X Y Z Ef Ev HA IH]; auto. inversion H; subst. apply IH; auto.
    eapply (proj1 (H2 X HX)); eauto.
  Qed.
  Lemma snoc_cases : forall S (l : list S), l = [] \/ exists l' x, l = l' ++ [x].
  Proof. intros S l. induction l using rev_ind; eauto. Qed.

  Lemma pipeline_starves : forall steps : list (pystr * obj A L V),
    Forall (fun ne => starves (snd ne)) steps -> starves (pipeline steps).
  Proof.
    intros steps H X HX. destruct (snoc_cases _ steps) as [->|(l & [nm o] & ->)].
    { repeat split; intros; discriminate. }
    rewrite Forall_app in H. destruct H as [Hl Ho]. inversion Ho; subst. cbn [snd] in *.
    assert (HS : Forall starves (map snd l)) by (rewrite Forall_map; auto).
    split; [|split; [|split]].
    - intros f Y E Ev. unfold pipeline in E. cbn [o_transform] in E. rewrite last_step_app in E.
      destruct (o_transform o) as [g|] eqn:Eg; [|discriminate]. injection E as <-.
      apply (run_ok _ None) in Ev. rewrite map_app in Ev. apply (applied_nothing (map snd l ++ [o]) X Y); [|exact HX|exact Ev]. rewrite Forall_app. auto.
    - intros f p E Ev. destruct (o_predict o) as [g|] eqn:Eg.
      + destruct (pipe_method_some _ l nm o g Eg) as (g' & E' & Hg). unfold pipeline in E. cbn [o_predict] in E.
        rewrite E in E'. injection E' as <-. apply (proj1 (Hg X)) in Ev. destruct Ev as (Z & HZ & Ev).
        eapply (proj1 (proj2 (H1 Z (applied_nothing _ _ _ HS HX HZ)))); eauto.
      + apply (pipe_method_none _ l nm o) in Eg. unfold pipeline in E. cbn [o_predict] in E. congruence.
    - intros f p E Ev. destruct (o_proba o) as [g|] eqn:Eg.
      + destruct (pipe_method_some _ l nm o g Eg) as (g' & E' & Hg). unfold pipeline in E. cbn [o_proba] in E.
        rewrite E in E'. injection E' as <-. apply (proj1 (Hg X)) in Ev. destruct Ev as (Z & HZ & Ev).
        eapply (proj1 (proj2 (proj2 (H1 Z (applied_nothing _ _ _ HS HX HZ))))); eauto.
      + apply (pipe_method_none _ l nm o) in Eg. unfold pipeline in E. cbn [o_proba] in E. congruence.
    - intros f p E Ev. destruct (o_log_proba o) as [g|] eqn:Eg.
      + destruct (pipe_method_some _ l nm o g Eg) as (g' & E' & Hg). unfold pipeline in E. cbn [o_log_proba] in E.
        rewrite E in E'. injection E' as <-. apply (proj1 (Hg X)) in Ev. destruct Ev as (Z & HZ & Ev).
        eapply (proj2 (proj2 (proj2 (H1 Z (applied_nothing _ _ _ HS HX HZ))))); eauto.
      + apply (pipe_method_none _ l nm o) in Eg. unfold pipeline in E. cbn [o_log_proba] in E. congruence.
  Qed.

  Lemma union_starves : forall (ms : list (pystr * obj A L V)) w,
    Forall (fun ne => keeps (snd ne) (DNum ExnObj)) ms -> starves (feature_union ms w).
  Proof.
    intros ms w H X HX. split; [|split; [|split]]; try (intros; discriminate).
    intros f Y E Ev. injection E as <-. exfalso. revert Ev. unfold union_transform, Pipeline.t_value.
    destruct (check_data X) as [X1|e] eqn:EC; [|discriminate].
    assert (X1 = DNum ExnObj) as ->.
    { destruct HX as [->|[->|[->|[->|[->|[->| ->]]]]]]; cbn in EC; try discriminate; congruence. }
    destruct (transform_all (weighted ms w) (DNum ExnObj)) as [r X2] eqn:ET.
    assert (X2 = DNum ExnObj) as ->.
    { change X2 with (snd (r, X2)). rewrite <- ET. apply all_keeps. unfold weighted. rewrite Forall_map. exact H. }
    cbn [t_out]. intro E. iv E. clear E0. iv E. destruct x0 as [|y ys]; [discriminate|].
    iv E0. destruct (existsb issparse _); [|discriminate]. unfold sparse_union in E0.
    iv E0. iv E2. iv E3. discriminate.
  Qed.

  Theorem est_starves : forall (veq : V -> V -> bool) vnum U e, starves (obj_of veq vnum U e).
  Proof.
    intros veq vnum U. apply est_rec'.
    - intros ms fs cl H. cbn [obj_of]. set (b := {| b_members := _ |}).
      assert (HB : hungry (bagging_predict_proba b)).
      { apply hungry_bagging. unfold b. cbn [b_members]. rewrite Forall_map. eapply Forall_impl; [|exact H].
        intros e He. apply hungry_proba; auto. }
      apply classifier_starves.
      + intros Y l HY E. unfold bagging_predict in E. iv E. iv E0. apply (HB Y _ HY) in E. subst. eapply mapM_nil; [exact E1|]. eapply mapM_nil; eauto.
      + intros f E. injection E as <-. exact HB.
      + intros f E. injection E as <-. apply hungry_apply. exact HB.
    - intros ts init lr nf ls cl _. cbn [obj_of]. apply classifier_starves.
      + apply hungry_mapM. apply hungry_gb.
      + intros f E. injection E as <-. apply hungry_gb.
      + intros f E. injection E as <-. apply hungry_apply. apply hungry_gb.
    - intros steps H. cbn [obj_of]. apply pipeline_starves. rewrite Forall_map. exact H.
    - intros ms w H. cbn [obj_of]. apply union_starves. rewrite Forall_map. cbn [snd]. apply Forall_forall. intros ne _.
      apply est_keeps. intros; right. exact I.
    - intros e He. destruct e; try contradiction; cbn [obj_of].
      + apply classifier_starves.
        * intros Y l HY E. unfold tree_predict in E. iv E. iv E0. apply (hungry_leaves _ _ _ HY) in E. subst.
          eapply mapM_nil; [exact E1|]. eapply mapM_nil; eauto.
        * intros f E. injection E as <-. apply hungry_mapM. apply hungry_leaves.
        * intros f E. injection E as <-. unfold tree_predict_log_proba. apply hungry_mapM. apply hungry_mapM. apply hungry_leaves.
      + intros X HX. apply nothing_num in HX. cbn [o_transform o_predict o_proba o_log_proba].
        split; [discriminate|]. split; [|split; discriminate]. intros f p E. injection E as <-. cbn [fst]. intro E. iv E. injection E0 as <-.
        unfold reg_predict in E. iv E. apply (hungry_leaves _ _ _ HX) in E. subst. cbn in E0. injection E0 as <-. right; right; auto.
      + apply classifier_starves; [apply hungry_mapM; apply hungry_xgb| |discriminate].
        intros f E. injection E as <-. apply hungry_xgb.
      + assert (HD : forall Y l, (Y = Arr [] \/ Y = ExnObj \/ Y = NotList) -> linear_predict c Y = Ok l -> l = []).
        { intros Y l HY E. unfold linear_predict in E. destruct (hungry_decision c Y HY) as [e Ee]. rewrite Ee in E. discriminate. }
        assert (HP : hungry (predict_proba_lr c)).
        { intros Y l HY E. unfold predict_proba_lr in E. destruct (hungry_decision c Y HY) as [e Ee]. rewrite Ee in E. discriminate. }
        assert (HQ : hungry (logistic_predict_proba c)).
        { intros Y l HY E. unfold logistic_predict_proba in E. iv E. destruct x; [apply (HP Y l HY E0)|].
          destruct (hungry_decision c Y HY) as [e Ee]. rewrite Ee in E0. discriminate. }
        assert (HS : hungry (sgd_predict_proba_inner c)).
        { intros Y l HY E. unfold sgd_predict_proba_inner in E. iv E. destruct (str_eqb _ _); [|discriminate]. apply (HP Y l HY E0). }
        destruct k; apply classifier_starves; try exact HD; try discriminate.
        * intros f E. injection E as <-. exact HQ.
        * intros f E. injection E as <-. apply hungry_mapM. exact HQ.
        * intros f E. destruct (is_ok _); [|discriminate]. injection E as <-. exact HS.
        * intros f E. destruct (is_ok _); [|discriminate]. injection E as <-. intros Y l HY E.
          unfold sgd_predict_log_proba in E. iv E. iv E0. unfold sgd_predict_proba in E0. iv E0.
          apply (HS Y _ HY) in E2. subst. eapply mapM_nil; eauto.
      + apply classifier_starves.
        * intros Y l HY E. unfold nb_predict in E. iv E. iv E0.
          assert (x0 = []) as ->; [|eapply mapM_nil; eauto]. apply (hungry_jll m HError Y); auto. rewrite E. auto.
        * intros f E. injection E as <-. apply hungry_mapM. apply hungry_nb_log.
        * intros f E. injection E as <-. apply hungry_nb_log.
      + assert (HP : hungry (dummy_predict_proba d)).
        { intros Y l [->|[->| ->]] E; try discriminate. cbn in E. congruence. }
        intros X HX. apply nothing_sized in HX. cbn [o_transform o_predict o_proba o_log_proba]. split; [discriminate|].
        split; [|split].
        * intros f p E. injection E as <-. cbn [fst]. intro E. iv E. injection E0 as <-.
          unfold dummy_predict in E. iv E. destruct HX as [HX|[HX|HX]]; rewrite HX in E0; try discriminate. cbn in E0. injection E0 as <-. right; left; auto.
        * intros f p E. injection E as <-. cbn [fst]. apply HP; auto.
        * intros f p E. injection E as <-. cbn [fst]. apply (hungry_apply _ _ _ HP); auto.
      + apply fresh_starves. intros X HX. left. destruct (nothing_num X HX) as [->|[->| ->]]; try (eexists; reflexivity). apply normalize_exn.
      + apply transformer_starves. intros X Y HX E. unfold std_method, Pipeline.t_value in E. cbn [t_out t_after] in E.
        iv E. iv E. injection E1 as <-. injection E0 as <-. apply nothing_num in HX. destruct HX as [HX|[HX|HX]]; rewrite HX in *; try discriminate.
        cbn [std_same]. unfold std_transform in E. cbn [check_array bind] in E.
        destruct (ss_mean_on s); [discriminate|]. cbn [bind] in E. destruct (ss_std_on s); [discriminate|]. injection E as <-. unfold nothing; auto.
      + apply fresh_starves. intros X HX. left. destruct (nothing_num X HX) as [->|[->| ->]]; eexists; reflexivity.
      + apply fresh_starves. intros X HX. left. destruct (nothing_num X HX) as [->|[->| ->]]; eexists; reflexivity.
      + apply fresh_starves. intros X HX. left. unfold onehot_transform. destruct (en_unknown e); cbn [bind]; eauto.
        destruct HX as [->|[->|[->|[->|[->|[->| ->]]]]]]; eexists; reflexivity.
      + apply fresh_starves. intros X HX. left. 
        destruct HX as [->|[->|[->|[->|[->|[->| ->]]]]]]; eexists; reflexivity.
      + apply fresh_starves. intros X HX. left. destruct (nothing_num X HX) as [->|[->| ->]]; eexists; reflexivity.
      + apply fresh_starves. intros X HX. left. destruct (nothing_num X HX) as [->|[->| ->]]; try (eexists; reflexivity).
        unfold imputer_transform. cbn [check_array bind]. destruct (si_add s); [destruct (si_indicator s)|]; cbn; eauto.
      + apply fresh_starves. intros X HX. left. destruct HX as [->|[->|[->|[->|[->|[->| ->]]]]]]; eexists; reflexivity.
      + apply fresh_starves. intros X HX. left. apply count_nothing; auto.
      + apply transformer_starves. intros X Y HX E. exfalso. unfold tfidf_method, Pipeline.t_value in E.
        destruct HX as [->|[->|[->|[->|[->|[->| ->]]]]]]; discriminate.
      + apply fresh_starves. intros X HX. left. unfold tfidf_vec_transform. destruct (count_nothing U c X HX) as [x ->]. cbn. eauto.
      + apply fresh_starves. intros X HX. left. apply hashvec_nothing; auto.
  Qed.
End Est.
