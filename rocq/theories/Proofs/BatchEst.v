(** Every estimator works row by row. *)
From Coq Require Import String Lia.
From Verif Require Import Model.Py Model.Arith Model.Utils Model.Base Model.Hash Model.DictVec Model.Text Model.Tree Model.Ensemble Model.Xgb Model.Linear
  Model.NaiveBayes Model.Dummy Model.Preprocessing Model.Encoders Model.Impute Model.Pipeline Model.Est.
From Verif Require Import Spec.Est Spec.Batch Proofs.Lib Proofs.Rows Proofs.Batch Proofs.BatchModels Proofs.BatchModels2 Proofs.BatchEnsembles
  Proofs.BatchTransforms Proofs.BatchText Proofs.BatchEncode Proofs.BatchUnion Proofs.Est.
Local Open Scope nat_scope.

Lemma map_rep : forall S T (f : S -> T) x n, map f (repeat x n) = repeat (f x) n.
Proof. intros S T f x n. induction n as [|n IH]; [reflexivity|]. cbn. rewrite IH. reflexivity. Qed.
Lemma mapM_repeat : forall S T W (g : T -> res W) (x : T) (l : list S), mapM (fun _ => g x) l = mapM g (repeat x (length l)).
Proof. intros S T W g x l. induction l as [|y l IH]; [reflexivity|]. cbn [mapM length repeat]. rewrite IH. reflexivity. Qed.

Section Est.
  Context {A : arith} {L V : Type} (veq : V -> V -> bool) (vnum : A -> V) (U : textlib).
  Local Notation data := (data A V).
  Local Notation obj := (obj A L V).

  (** From functions on matrices to functions on data. *)
  Lemma pred_data : forall p (f : arr A -> res (list (pval (A:=A) (L:=L) p))), num_pred f -> row_predict (fun X : data => l <- f (as_num X) ;; Ok (mk_preds p l)).
  Proof.
    intros p f (H1 & H2 & H3) k. exists p.
    assert (NV : (forall l, as_num (A:=A) (V:=V) (build k l) = NotList) -> exists g : row (A:=A) (V:=V) k -> res (pval p), forall l, batch k l ->
      oke (l0 <- f (as_num (build k l)) ;; Ok (mk_preds p l0)) (r <- mapM g l ;; Ok (mk_preds p r))).
    { intro E. exists (fun _ => Err ValueError). intros l [N _] t. rewrite E. split.
      - intro Q. nb Q r F. destruct (H1 _ F).
      - destruct l; [congruence|discriminate]. }
    destruct k as [c|sz dt| | |c|]; try (apply NV; reflexivity).
    - destruct (H2 c) as (g & G). exists g. intros M Hl. apply oke_bind_l. apply G. exact Hl.
    - destruct (H3 sz dt) as (g & G). exists g. intros R Hl. apply oke_bind_l. apply G. apply Hl.
  Qed.
  Lemma proba_data : forall f : arr A -> res (list (list A)), num_proba f -> row_proba (fun X : data => f (as_num X)).
  Proof.
    intros f (H1 & H2 & H3) k.
    assert (NV : (forall l, as_num (A:=A) (V:=V) (build k l) = NotList) -> exists w (g : row (A:=A) (V:=V) k -> res (list A)), (forall x r, fits k x -> g x = Ok r -> length r = w) /\
      forall l, batch k l -> oke (f (as_num (build k l))) (mapM g l)).
    { intro E. exists 0, (fun _ => Err ValueError). split; [discriminate|]. intros l [N _] t. rewrite E. split.
      - intro Q. destruct (H1 _ Q).
      - destruct l; [congruence|discriminate]. }
    destruct k as [c|sz dt| | |c|]; try (apply NV; reflexivity).
    - destruct (H2 c) as (w & g & W & G). exists w, g. split; [exact W|]. intros M Hl. apply G. exact Hl.
    - destruct (H3 sz dt) as (w & g & W & G). exists w, g. split; [intros x r _; apply W|]. intros R Hl. apply G. apply Hl.
  Qed.
  (** The same for functions that only use the number of rows. *)
  Lemma sized_rows : forall T (f : arr A -> res (list T)) (k : kind) (g : list A -> res T),
    (forall M, M <> [] /\ Forall (fun r => length r = 0) M -> oke (f (ll M)) (mapM g M)) ->
    match k with KLists _ | KSparse _ _ | KBad => False | _ => True end ->
    forall l, batch k l -> oke (f (as_sized (build (A:=A) (V:=V) k l))) (mapM (fun _ => g []) l).
  Proof.
    intros T f k g G Hk l [N _].
    assert (E : as_sized (build (A:=A) (V:=V) k l) = ll (rep [] (length l))).
    { destruct k; try contradiction; cbn [build as_sized data_len len items ll bind]; rewrite ?map_length; unfold ll, rep; rewrite map_rep; reflexivity. }
    rewrite E. rewrite (mapM_repeat _ _ _ g). apply G. destruct l; [congruence|]. split; [discriminate|]. apply Forall_forall. intros q Hq. apply repeat_spec in Hq. subst. reflexivity.
  Qed.
  Lemma sized_pred : forall p (f : arr A -> res (list (pval (A:=A) (L:=L) p))), num_pred f -> row_predict (fun X : data => l <- f (as_sized X) ;; Ok (mk_preds p l)).
  Proof.
    intros p f (H1 & H2 & H3) k. exists p. destruct k as [c|sz dt| | |c|].
    - destruct (H2 c) as (g & G). exists g. intros M Hl. apply oke_bind_l. apply G. exact Hl.
    - destruct (H3 sz dt) as (g & G). exists g. intros R Hl. apply oke_bind_l. apply G. apply Hl.
    - destruct (H2 0) as (g & G). exists (fun _ => g []). intros l Hl. apply oke_bind_l. apply (sized_rows _ f KDocs g G I l Hl).
    - destruct (H2 0) as (g & G). exists (fun _ => g []). intros l Hl. apply oke_bind_l. apply (sized_rows _ f KMaps g G I l Hl).
    - destruct (H2 0) as (g & G). exists (fun _ => g []). intros l Hl. apply oke_bind_l. apply (sized_rows _ f (KCats c) g G I l Hl).
    - exists (fun _ => Err ValueError). intros l [N _] t. cbn [build as_sized]. split.
      + intro Q. nb Q r F. destruct (H1 _ F).
      + destruct l; [congruence|discriminate].
  Qed.
  Lemma sized_proba : forall f : arr A -> res (list (list A)), num_proba f -> row_proba (fun X : data => f (as_sized X)).
  Proof.
    intros f (H1 & H2 & H3) k. destruct k as [c|sz dt| | |c|].
    - destruct (H2 c) as (w & g & W & G). exists w, g. split; [exact W|]. intros M Hl. apply G. exact Hl.
    - destruct (H3 sz dt) as (w & g & W & G). exists w, g. split; [intros x r _; apply W|]. intros R Hl. apply G. apply Hl.
    - destruct (H2 0) as (w & g & W & G). exists w, (fun _ => g []). split; [intros x r _; apply W; reflexivity|]. exact (sized_rows _ f KDocs g G I).
    - destruct (H2 0) as (w & g & W & G). exists w, (fun _ => g []). split; [intros x r _; apply W; reflexivity|]. exact (sized_rows _ f KMaps g G I).
    - destruct (H2 0) as (w & g & W & G). exists w, (fun _ => g []). split; [intros x r _; apply W; reflexivity|]. exact (sized_rows _ f (KCats c) g G I).
    - exists 0, (fun _ => Err ValueError). split; [discriminate|]. intros l [N _] t. cbn [build as_sized]. split.
      + intro Q. destruct (H1 _ Q).
      + destruct l; [congruence|discriminate].
  Qed.
  (** ... and back: a function of an object that is not a list returns the same
      for any number of its rows, hence nothing. *)
  Lemma data_proba : forall f : data -> res (list (list A)), row_proba f -> num_proba (fun X => f (DNum X)).
  Proof.
    intros f H. split; [|split].
    - intros t E. destruct (H KBad) as (w & g & _ & G).
      assert (B1 : batch (A:=A) (V:=V) KBad [tt]) by (split; [discriminate|repeat constructor]).
      assert (B2 : batch (A:=A) (V:=V) KBad [tt; tt]) by (split; [discriminate|repeat constructor]).
      assert (E1 := E). assert (E2 := E). apply (G _ B1) in E1. apply (G _ B2) in E2. apply mapM_length in E1. apply mapM_length in E2. cbn in *. congruence.
    - intro c. destruct (H (KLists c)) as (w & g & W & G). exists w, g. split; [exact W|]. intros M HM. apply (G M HM).
    - intros sz dt. destruct (H (KSparse sz dt)) as (w & g & W & G). exists w, g. split; [intros x r; apply W; exact I|]. intros R N. apply (G R). split; [exact N|].
      apply Forall_forall. intros; exact I.
  Qed.
  Lemma proba_of_rows : forall o : obj, rowwise o -> num_proba (proba_of o).
  Proof.
    intros o (_ & _ & H & _). unfold proba_of. destruct (o_proba o) as [f|].
    - apply (data_proba (fun X => fst (f X))). apply H. reflexivity.
    - split; [discriminate|]. split; [intro c|intros sz dt]; exists 0, (fun _ => Err AttributeError); (split; [discriminate|]).
      + intros M [N _]. destruct M; [congruence|]. apply oke_err.
      + intros R N. destruct R; [congruence|]. apply oke_err.
  Qed.

  Lemma no_transform : forall o : obj, o_transform o = None -> row_transform (call_transform o).
  Proof. intros o E k. left. apply row_never. intros l t _. unfold call_transform. rewrite E. discriminate. Qed.
  Lemma classifier_rows : forall p pp lp cl, num_pred p -> (forall f, pp = Some f -> num_proba f) -> (forall f, lp = Some f -> num_proba f) ->
    rowwise (classifier (A:=A) (V:=V) (L:=L) p pp lp cl).
  Proof.
    intros p pp lp cl H1 H2 H3. split; [apply no_transform; reflexivity|]. split; [|split].
    - intros f E. cbn in E. injection E as <-. cbn [fst]. apply (pred_data PKLab p H1).
    - intros f E. cbn in E. destruct pp as [g|]; [|discriminate]. injection E as <-. cbn [fst]. apply (proba_data g). auto.
    - intros f E. cbn in E. destruct lp as [g|]; [|discriminate]. injection E as <-. cbn [fst]. apply (proba_data g). auto.
  Qed.
  Lemma transformer_rows : forall t, row_transform (call_transform (transformer (L:=L) t)) -> rowwise (A:=A) (V:=V) (transformer (L:=L) t).
  Proof. intros t H. split; [exact H|]. split; [|split]; intros f E; discriminate. Qed.

  Lemma est_rows : forall e : est A L V, (forall p, part e p -> rowwise_part p) -> rowwise (obj_of veq vnum U e).
  Proof.
    apply (est_rec' (fun e => (forall p, part e p -> rowwise_part p) -> rowwise (obj_of veq vnum U e))).
    - intros ms fs cl IH H.
      assert (HM : Forall num_proba (map (fun m => proba_of (obj_of veq vnum U m)) ms)).
      { rewrite Forall_map, Forall_forall in *. intros m Hm. apply proba_of_rows. apply IH; auto. intros p Hp. apply H. eapply part_bagging; eauto. }
      cbn [obj_of]. apply classifier_rows; [apply bagging_pred; exact HM|intros f E; injection E as <-; apply bagging_proba; exact HM|intros f E; injection E as <-; apply bagging_log; exact HM].
    - intros ts init lr nf ls cl IH H.
      set (g := {| gb_estimators := ts; gb_init := option_map (fun i => proba_of (obj_of veq vnum U i)) init; gb_lr := lr; gb_nfeat := nf; gb_loss := ls; gb_classes := cl |}).
      assert (HM : match gb_init g with Some f => num_proba f | None => True end).
      { unfold g. cbn [gb_init]. destruct init as [i|]; cbn [option_map]; [|exact I]. apply proba_of_rows. apply IH. intros p Hp. apply H. apply part_gb; auto. }
      cbn [obj_of]. fold g. apply classifier_rows; [apply gb_pred; exact HM|intros f E; injection E as <-; apply gb_proba; exact HM|intros f E; injection E as <-; apply gb_log; exact HM].
    - intros steps IH H. cbn [obj_of]. apply pipeline_rowwise. rewrite Forall_map. cbn [snd]. rewrite Forall_forall in *. intros [nm e] Hin. apply (IH _ Hin). intros p Hp. apply H. eapply part_pipeline; eauto.
    - intros ms w IH H. cbn [obj_of]. assert (N : ms <> []) by exact (H _ (part_self _)).
      assert (HM : Forall (fun no : pystr * obj => rowwise (snd no)) (map (fun ne => (fst ne, obj_of veq vnum U (snd ne))) ms)).
      { rewrite Forall_map. cbn [snd]. rewrite Forall_forall in *. intros [nm e] Hin. apply (IH _ Hin). intros p Hp. apply H. eapply part_union; eauto. }
      split; [|split; [|split]; intros f E; discriminate]. unfold call_transform. cbn [feature_union o_transform]. apply union_rows.
      + destruct ms; [congruence|discriminate].
      + unfold weighted. rewrite Forall_map. eapply Forall_impl; [|exact HM]. intros no K. apply K.
    - intros e He H. assert (HP := H _ (part_self _)). destruct e; try contradiction; cbn [obj_of rowwise_part] in *.
      + destruct HP as [w HP]. apply classifier_rows; [apply tree_pred|intros f E; injection E as <-; eapply tree_proba; eauto|intros f E; injection E as <-; apply log_proba_rows; eapply tree_proba; eauto].
      + split; [apply no_transform; reflexivity|]. split; [|split; discriminate]. intros f E. injection E as <-. cbn [fst]. apply (pred_data PKNum (reg_predict t)). apply reg_pred.
      + apply classifier_rows; [apply xgb_pred|intros f E; injection E as <-; apply xgb_proba|discriminate].
      + destruct k.
        * apply classifier_rows; [apply linear_pred|intros f E; injection E as <-; apply logistic_proba|intros f E; injection E as <-; apply log_proba_rows; apply logistic_proba].
        * apply classifier_rows; [apply linear_pred| |]; intros f E; (destruct (is_ok (check_proba c)); [|discriminate]); injection E as <-; [apply sgd_proba|apply sgd_log_proba].
        * apply classifier_rows; [apply linear_pred| |]; discriminate.
      + assert (HN : ok_nb m) by exact HP. apply classifier_rows; [apply nb_pred; auto|intros f E; injection E as <-; apply nb_proba; auto|intros f E; injection E as <-; apply nb_log; auto].
      + split; [apply no_transform; reflexivity|]. split; [|split]; intros f E; injection E as <-; cbn [fst].
        * apply (sized_pred PKIdx (dummy_predict d)). apply dummy_pred.
        * apply (sized_proba (dummy_predict_proba d)). apply dummy_proba.
        * apply (sized_proba (dummy_predict_log_proba d)). apply log_proba_2d. apply dummy_proba.
      + apply transformer_rows. apply (num_trans_fresh (normalizer_transform norm)). apply normalizer_rows.
      + apply transformer_rows. apply std_rows.
      + apply transformer_rows. apply (num_trans_fresh (minmax_transform s)). apply minmax_rows.
      + apply transformer_rows. apply (num_trans_fresh (maxabs_transform scale)). apply maxabs_rows.
      + apply transformer_rows. apply onehot_rows.
      + apply transformer_rows. apply ordinal_rows.
      + apply transformer_rows. apply (num_trans_fresh (fun X => rows_out (indicator_transform t X))). apply indicator_rows; auto.
      + apply transformer_rows. apply (num_trans_fresh (fun X => rows_out (imputer_transform s X))). apply imputer_rows; auto.
      + apply transformer_rows. apply dictvec_rows.
      + apply transformer_rows. apply count_rows; auto.
      + apply transformer_rows. apply tfidf_rows.
      + apply transformer_rows. apply tfidf_vec_rows; auto.
      + apply transformer_rows. apply hashvec_rows; auto.
  Qed.

  (** Splits. *)
  Lemma joined_build : forall parts X, joined (A:=A) (V:=V) parts X -> exists k ls, k <> KBad /\ ls <> [] /\ Forall (batch k) ls /\ parts = map (build k) ls /\ X = build k (concat ls).
  Proof.
    intros parts X H. destruct H as [c Ms N H|sz dt Rs N H|Ds N H|Ds N H|c Ms N H].
    - exists (KLists c), Ms. repeat split; try discriminate; auto.
    - exists (KSparse sz dt), Rs. repeat split; try discriminate; auto. eapply Forall_impl; [|exact H]. intros R HR. split; auto. apply Forall_forall; intros; exact I.
    - exists KDocs, Ds. repeat split; try discriminate; auto. eapply Forall_impl; [|exact H]. intros R HR. split; auto. apply Forall_forall; intros; exact I.
    - exists KMaps, Ds. repeat split; try discriminate; auto. eapply Forall_impl; [|exact H]. intros R HR. split; auto. apply Forall_forall; intros; exact I.
    - exists (KCats c), Ms. repeat split; try discriminate; auto.
  Qed.
  Lemma build_joined : forall k ls, k <> KBad -> ls <> [] -> Forall (batch k) ls -> joined (A:=A) (V:=V) (map (build k) ls) (build k (concat ls)).
  Proof.
    intros k ls HK N H. assert (HN : Forall (fun l => l <> []) ls) by (eapply Forall_impl; [|exact H]; intros l Hl; apply Hl).
    destruct k as [c|sz dt| | |c|]; [|constructor; auto|apply joined_docs; auto|apply joined_maps; auto| |congruence]; [apply (joined_lists c)|apply (joined_cats c)]; auto.
  Qed.
  Lemma batch_concat : forall k (ls : list (list (row (A:=A) (V:=V) k))), ls <> [] -> Forall (batch k) ls -> batch k (concat ls).
  Proof.
    intros k ls N H. split.
    - destruct H as [|l ls [Hl _] H]; [congruence|]. destruct l; [congruence|discriminate].
    - clear N. induction H as [|l ls [_ Hl] H IH]; [constructor|]. cbn. apply Forall_app. auto.
  Qed.
  Lemma split_rows : forall {T W} k (f : data -> res T) (mk : list W -> T) (g : row (A:=A) (V:=V) k -> res W) ls, ls <> [] -> Forall (batch k) ls ->
    (forall l, batch k l -> oke (f (build k l)) (r <- mapM g l ;; Ok (mk r))) -> forall t,
    f (build k (concat ls)) = Ok t <-> exists qs, Forall2 (fun l q => mapM g l = Ok q) ls qs /\ each f (map (build k) ls) (map mk qs) /\ t = mk (concat qs).
  Proof.
    intros T W k f mk g ls N HB H t.
    assert (EA : forall qs, Forall2 (fun l q => mapM g l = Ok q) ls qs -> each f (map (build k) ls) (map mk qs)).
    { intros qs E. unfold each. clear N. revert HB. induction E as [|l q ls qs E E' IH]; intro HB; cbn; constructor; inversion HB; subst; auto. apply H; auto. rewrite E. auto. }
    split.
    - intro E. apply (H _ (batch_concat _ _ N HB)) in E. nb E r F. apply mapM_concat in F. destruct F as (qs & F & ->). exists qs. injection E as <-. auto.
    - intros (qs & E & _ & ->). apply H; [apply batch_concat; auto|]. rewrite (proj2 (mapM_concat g ls (concat qs))); [auto|]. eauto.
  Qed.
  Lemma each_rows : forall {T W} k (f : data -> res T) (mk : list W -> T) (g : row (A:=A) (V:=V) k -> res W) ls, Forall (batch k) ls ->
    (forall l, batch k l -> oke (f (build k l)) (r <- mapM g l ;; Ok (mk r))) -> forall Qs, each f (map (build k) ls) Qs ->
    exists qs, Forall2 (fun l q => mapM g l = Ok q) ls qs /\ Qs = map mk qs.
  Proof.
    intros T W k f mk g ls HB H. induction HB as [|l ls Hl HB IH]; intros Qs E; inversion E; subst; [exists []; auto|].
    destruct (IH _ H4) as (qs & E1 & ->). apply H in H2; auto. nb H2 q F. injection H2 as <-. exists (q :: qs). auto.
  Qed.
  Lemma ne_of : forall {S T} (P : S -> T -> Prop) ls qs, Forall2 P ls qs -> ls <> [] -> qs <> [].
  Proof. intros S T P ls qs H N. destruct H; [congruence|discriminate]. Qed.
  Lemma batches_of : forall k k' (g : row (A:=A) (V:=V) k -> res (row (A:=A) (V:=V) k')) ls qs, (forall x y, fits k x -> g x = Ok y -> fits k' y) ->
    Forall (batch k) ls -> Forall2 (fun l q => mapM g l = Ok q) ls qs -> Forall (batch k') qs.
  Proof.
    intros k k' g ls qs F HB E. induction E as [|l q ls qs E E' IH]; constructor; inversion HB; subst; auto. eapply (batch_mapM k k' g); eauto.
  Qed.
  Lemma map_inj : forall {S T} (f : S -> T) (l l' : list S), (forall x y, f x = f y -> x = y) -> map f l = map f l' -> l = l'.
  Proof. intros S T f l; induction l as [|x l IH]; intros [|y l'] H E; try discriminate; auto. cbn in E. injection E as E1 E2. f_equal; auto. Qed.
  Lemma build_inj : forall k l l', k <> KBad -> build (A:=A) (V:=V) k l = build k l' -> l = l'.
  Proof.
    intros [c|sz dt| | |c|] l l' K E; cbn [build] in E; try (injection E as E; auto); try congruence.
    - eapply map_inj; [|exact E]. congruence.
    - eapply map_inj; [|exact E]. congruence.
  Qed.
  Lemma appended_inv : forall p (qs : list (list (pval (A:=A) (L:=L) p))) r, qs <> [] -> appended (map (mk_preds p) qs) r -> r = mk_preds p (concat qs).
  Proof.
    intros p qs r N H. destruct qs as [|q qs]; [congruence|]. inversion H as [ls E|ls E|ls E]; destruct ls as [|l ls]; try discriminate;
      destruct p; cbn [map mk_preds] in E; try discriminate; injection E as E1 E2; subst l; (assert (ls = qs) by (eapply map_inj; [|exact E2]; congruence)); subst; reflexivity.
  Qed.
  Lemma appended_of : forall p (qs : list (list (pval (A:=A) (L:=L) p))), appended (map (mk_preds p) qs) (mk_preds p (concat qs)).
  Proof. intros [| |] qs; constructor. Qed.
  (** two batches of one kind that are joined the same way are equal *)
  Lemma joined_fun : forall parts X Y, joined (A:=A) (V:=V) parts X -> joined parts Y -> X = Y.
  Proof.
    intros parts X Y HX HY. destruct (joined_build _ _ HX) as (k & ls & K & N & B & -> & ->). destruct (joined_build _ _ HY) as (k' & ls' & K' & N' & B' & E & ->).
    destruct ls as [|l ls]; [congruence|]. destruct ls' as [|l' ls']; [discriminate|].
    assert (EK : exists ls2, map (build k) (l :: ls) = map (build k) ls2 /\ build k' (concat (l' :: ls')) = build k (concat ls2)).
    { destruct k as [c|sz dt| | |c|], k' as [c'|sz' dt'| | |c'|]; try congruence; try discriminate E.
      - exists (l' :: ls'). split; [exact E|reflexivity].
      - exists (l' :: ls'). assert (Q : sz' = sz /\ dt' = dt) by (cbn in E; injection E; auto). destruct Q as [-> ->]. split; [exact E|reflexivity].
      - exists (l' :: ls'). split; [exact E|reflexivity].
      - exists (l' :: ls'). split; [exact E|reflexivity].
      - exists (l' :: ls'). split; [exact E|reflexivity]. }
    destruct EK as (ls2 & E1 & E2). rewrite E2. f_equal. f_equal. eapply map_inj; [|exact E1]. intros x y. apply build_inj; auto.
  Qed.

  Lemma split_predict : forall f : data -> res (preds A L), row_predict f -> forall parts X, joined parts X -> forall r,
    f X = Ok r <-> exists rs, each f parts rs /\ appended rs r.
  Proof.
    intros f H parts X HJ r. destruct (joined_build _ _ HJ) as (k & ls & K & N & B & -> & ->). destruct (H k) as (p & g & G).
    rewrite (split_rows k f (mk_preds p) g ls N B G r). split.
    - intros (qs & E1 & E2 & ->). exists (map (mk_preds p) qs). split; [auto|]. apply appended_of.
    - intros (rs & E1 & E2). destruct (each_rows k f (mk_preds p) g ls B G rs E1) as (qs & E3 & ->). exists qs. split; [auto|]. split; [auto|]. apply appended_inv; auto. eapply ne_of; eauto.
  Qed.
  Lemma split_proba : forall f : data -> res (list (list A)), row_proba f -> forall parts X, joined parts X -> forall M,
    f X = Ok M <-> exists Ms, each f parts Ms /\ M = concat Ms.
  Proof.
    intros f H parts X HJ r. destruct (joined_build _ _ HJ) as (k & ls & K & N & B & -> & ->). destruct (H k) as (w & g & _ & G).
    assert (G' : forall l, batch k l -> oke (f (build k l)) (r <- mapM g l ;; Ok r)) by (intros l Hl; rewrite bind_ret; auto).
    rewrite (split_rows k f (fun x => x) g ls N B G' r). split.
    - intros (qs & E1 & E2 & ->). exists qs. rewrite map_id in E2. auto.
    - intros (rs & E1 & ->). destruct (each_rows k f (fun x => x) g ls B G' rs E1) as (qs & E3 & ->). exists qs. rewrite map_id in *. auto.
  Qed.
  Lemma split_transform : forall f : data -> tres A V, row_transform f -> forall parts X, joined parts X -> forall Y,
    t_value (f X) = Ok Y <-> exists Ys, each (fun P => t_value (f P)) parts Ys /\ joined Ys Y.
  Proof.
    intros f H parts X HJ Y. destruct (joined_build _ _ HJ) as (k & ls & K & N & B & -> & ->). destruct (row_value f H k) as (k' & g & [KB F] & G).
    assert (K' : k' <> KBad) by auto.
    rewrite (split_rows k (fun X => t_value (f X)) (build k') g ls N B G Y). split.
    - intros (qs & E1 & E2 & ->). exists (map (build k') qs). split; [auto|]. apply build_joined; [auto|eapply ne_of; eauto|eapply batches_of; eauto].
    - intros (Ys & E1 & E2). destruct (each_rows k (fun X => t_value (f X)) (build k') g ls B G Ys E1) as (qs & E3 & ->). exists qs. split; [auto|]. split; [auto|].
      eapply joined_fun; [exact E2|]. apply build_joined; [auto|eapply ne_of; eauto|eapply batches_of; eauto].
  Qed.
End Est.
