(** Class names are only copied. *)
From Coq Require Import String.
From Verif Require Import Model.Py Model.Arith Model.Utils Model.Base Model.Hash Model.DictVec
  Model.Text Model.Tree Model.Ensemble Model.Xgb Model.Linear Model.NaiveBayes
  Model.Dummy Model.Preprocessing Model.Encoders Model.Impute Model.Pipeline Model.Est.
From Verif Require Import Spec.Relabel Proofs.Lib Proofs.Est.

Definition rmap {S T} (f : S -> T) (r : res S) : res T := x <- r ;; Ok (f x).

Lemma bind_ext : forall {S T} (r r' : res S) (k k' : S -> res T), r = r' -> (forall x, k x = k' x) -> bind r k = bind r' k'.
Proof. intros S T r r' k k' E H. rewrite E. destruct r'; cbn; auto. Qed.
Lemma bind_rmap : forall {S T W} (r : res S) (k : S -> res T) (f : T -> W), rmap f (bind r k) = bind r (fun x => rmap f (k x)).
Proof. intros S T W [x|e] k f; reflexivity. Qed.
Lemma rmap_bind : forall {S T W} (g : S -> T) (r : res S) (k : T -> res W), bind (rmap g r) k = bind r (fun x => k (g x)).
Proof. intros S T W g [x|e] k; reflexivity. Qed.
Lemma mapM_same : forall {S T} (f g : S -> res T) l, (forall x, f x = g x) -> mapM f l = mapM g l.
Proof. intros S T f g l H. apply mapM_ext. auto. Qed.
Lemma foldM_same : forall {S T} (f g : S -> T -> res S) l a, (forall a x, f a x = g a x) -> foldM f l a = foldM g l a.
Proof. intros S T f g l. induction l as [|x l IH]; intros a H; cbn; [reflexivity|]. apply bind_ext; auto. Qed.
Lemma lnth_map : forall {S T} (f : S -> T) l i, lnth (map f l) i = rmap f (lnth l i).
Proof. intros S T f l i. unfold lnth. rewrite nth_error_map. destruct (nth_error l i); reflexivity. Qed.
Lemma lget_map : forall {S T} (f : S -> T) l i, lget (map f l) i = rmap f (lget l i).
Proof. intros S T f l i. unfold lget. rewrite map_length. destruct (_ && _)%bool; [apply lnth_map|reflexivity]. Qed.
Lemma mapM_rmap : forall {S T W} (f : T -> W) (g : S -> res T) l, mapM (fun x => rmap f (g x)) l = rmap (map f) (mapM g l).
Proof.
  intros S T W f g l. induction l as [|x l IH]; [reflexivity|]. cbn [mapM]. destruct (g x); [|reflexivity]. cbn [rmap bind].
  rewrite IH. destruct (mapM g l); reflexivity.
Qed.

Section Relabel.
  Context {A : arith} {L K V : Type}.
  Variable (f : L -> K).

  Lemma descend_relabel : forall (t : tree A L) x fuel nd, descend (relabel_tree f t) x fuel nd = descend t x fuel nd.
  Proof.
    intros t x fuel. induction fuel as [|n IH]; intro nd; [reflexivity|]. cbn [descend].
    apply bind_ext; [reflexivity|]. intro l. apply bind_ext; [reflexivity|]. intro r. destruct (l =? r)%Z; [reflexivity|].
    apply bind_ext; [reflexivity|]. intro v. apply bind_ext; [reflexivity|]. intro h. destruct (leb v h); apply IH.
  Qed.
  Lemma leaves_relabel : forall (t : tree A L) X, leaves (relabel_tree f t) X = leaves t X.
  Proof.
    intros t X. unfold leaves. apply bind_ext; [reflexivity|]. intro X'. apply bind_ext; [reflexivity|]. intro l.
    apply mapM_same. intro x. apply descend_relabel.
  Qed.
  Lemma reg_relabel : forall (t : tree A L) X, reg_predict (relabel_tree f t) X = reg_predict t X.
  Proof. intros t X. unfold reg_predict. rewrite leaves_relabel. reflexivity. Qed.
  Lemma tree_proba_relabel : forall (t : tree A L) X, tree_predict_proba (relabel_tree f t) X = tree_predict_proba t X.
  Proof. intros t X. unfold tree_predict_proba. rewrite leaves_relabel. reflexivity. Qed.
  Lemma picks_relabel : forall (cl : list L) l, mapM (lnth (map f cl)) l = rmap (map f) (mapM (lnth cl) l).
  Proof. intros cl l. rewrite <- mapM_rmap. apply mapM_same. intro. apply lnth_map. Qed.
  Lemma pick_relabel : forall (cl : list L) (P : list (list A)),
    mapM (fun a => i <- argmax a ;; lnth (map f cl) i) P = rmap (map f) (mapM (fun a => i <- argmax a ;; lnth cl i) P).
  Proof.
    intros cl P. rewrite <- mapM_rmap. apply mapM_same. intro a. rewrite bind_rmap. apply bind_ext; auto. intro. apply lnth_map.
  Qed.
  Lemma tree_relabel : forall (t : tree A L) X, tree_predict (relabel_tree f t) X = rmap (map f) (tree_predict t X).
  Proof.
    intros t X. unfold tree_predict. rewrite leaves_relabel, bind_rmap. apply bind_ext; auto. intro l. rewrite bind_rmap.
    apply bind_ext; auto. intro p. apply picks_relabel.
  Qed.

  (** ensembles *)
  Definition alike (p p' : proba_fun A) : Prop := forall X, p X = p' X.
  Lemma lnth_rel : forall {S} (R : S -> S -> Prop) l l' i, Forall2 R l l' ->
    (exists x y, lnth l i = Ok x /\ lnth l' i = Ok y /\ R x y) \/ (lnth l i = Err IndexError /\ lnth l' i = Err IndexError).
  Proof.
    intros S R l l' i H. revert i. induction H as [|x y l l' Hxy H IH]; intros [|i]; unfold lnth in *; cbn; eauto 6.
  Qed.
  Lemma member_relabel : forall ps ps' fs (cl : list L) (cl' : list K) X i, Forall2 alike ps ps' ->
    member_proba {| b_members := ps'; b_feats := fs; b_classes := cl' |} X i =
    member_proba {| b_members := ps; b_feats := fs; b_classes := cl |} X i.
  Proof.
    intros ps ps' fs cl cl' X i H. unfold member_proba. cbn [b_members].
    destruct (lnth_rel alike ps ps' i H) as [(p & p' & E & E' & Q)|[E E']]; rewrite E, E'; [|reflexivity].
    cbn [bind]. apply bind_ext; [reflexivity|]. intro g. apply bind_ext; [reflexivity|]. intro X'. symmetry. apply Q.
  Qed.
  Lemma bagging_proba_relabel : forall ps ps' fs (cl : list L) (cl' : list K) X, Forall2 alike ps ps' ->
    bagging_predict_proba {| b_members := ps'; b_feats := fs; b_classes := cl' |} X =
    bagging_predict_proba {| b_members := ps; b_feats := fs; b_classes := cl |} X.
  Proof.
    intros ps ps' fs cl cl' X H. unfold bagging_predict_proba. cbn [b_members]. rewrite <- (Forall2_len _ _ _ H).
    apply bind_ext; [apply member_relabel; exact H|]. intro p0. apply bind_ext; [|reflexivity].
    apply foldM_same. intros a i. apply bind_ext; [apply member_relabel; exact H|]. reflexivity.
  Qed.
  Lemma gb_column_relabel : forall ts (init init' : option (proba_fun A)) lr nf ls (cl : list L) (cl' : list K) X n k,
    gb_column {| gb_estimators := map (map (relabel_tree f)) ts; gb_init := init'; gb_lr := lr; gb_nfeat := nf; gb_loss := ls; gb_classes := cl' |} X n k =
    gb_column {| gb_estimators := ts; gb_init := init; gb_lr := lr; gb_nfeat := nf; gb_loss := ls; gb_classes := cl |} X n k.
  Proof.
    intros. unfold gb_column. cbn [gb_estimators gb_lr]. rewrite map_length. apply foldM_same. intros a i.
    rewrite lnth_map, rmap_bind. apply bind_ext; auto. intro row. rewrite lnth_map, rmap_bind. apply bind_ext; auto. intro t.
    apply bind_ext; [apply reg_relabel|]. reflexivity.
  Qed.
  Lemma gb_raw_relabel : forall ts (init init' : option (proba_fun A)) lr nf ls (cl : list L) (cl' : list K) X,
    match init, init' with Some p, Some p' => alike p p' | None, None => True | _, _ => False end ->
    gb_raw_predict {| gb_estimators := map (map (relabel_tree f)) ts; gb_init := init'; gb_lr := lr; gb_nfeat := nf; gb_loss := ls; gb_classes := cl' |} X =
    gb_raw_predict {| gb_estimators := ts; gb_init := init; gb_lr := lr; gb_nfeat := nf; gb_loss := ls; gb_classes := cl |} X.
  Proof.
    intros ts init init' lr nf ls cl cl' X H. unfold gb_raw_predict. apply bind_ext.
    - unfold gb_raw_init. cbn [gb_nfeat gb_init gb_loss]. apply bind_ext; auto. intro X'. apply bind_ext; auto. intro w. apply bind_ext; auto. intro.
      destruct init as [p|], init' as [p'|]; cbn; try contradiction; auto. unfold get_init_raw. apply bind_ext; [symmetry; apply H|]. reflexivity.
    - intro i0. cbn [gb_estimators]. rewrite lnth_map, rmap_bind. apply bind_ext; auto. intro e0. rewrite map_length. apply bind_ext.
      + apply mapM_same. intro k. apply bind_ext; auto. intro n. apply gb_column_relabel.
      + reflexivity.
  Qed.
  Lemma xgb_proba_relabel : forall (g : xgb A L) X, xgb_predict_proba (relabel_xgb f g) X = xgb_predict_proba g X.
  Proof.
    intros g X. unfold xgb_predict_proba. cbn [relabel_xgb xg_objective xg_nclasses]. apply bind_ext; auto. intro X'.
    destruct (str_eqb _ _); [|destruct (str_eqb _ _)]; [| |reflexivity].
    - apply bind_ext; [|reflexivity]. unfold xgb_scores. cbn [relabel_xgb xg_nclasses xg_nest xg_estimators]. apply mapM_same. intro c.
      apply bind_ext; auto. intro n. apply foldM_same. intros a e. rewrite lget_map, rmap_bind. apply bind_ext; auto. intros [t|l]; [reflexivity|].
      cbn [bind]. rewrite lget_map, rmap_bind. apply bind_ext; auto. intro t. apply bind_ext; [apply reg_relabel|]. reflexivity.
    - apply bind_ext; [|reflexivity]. unfold xgb_binary_scores. cbn [relabel_xgb xg_estimators]. apply bind_ext; auto. intro n.
      generalize (rep (zero (A:=A)) n). induction (xg_estimators g) as [|[t|l] es IH]; intro a; cbn [map foldM]; [reflexivity| |reflexivity].
      rewrite reg_relabel. apply bind_ext; auto.
  Qed.

  Lemma linear_relabel : forall (c : linear A L) X, linear_predict (relabel_linear f c) X = rmap (map f) (linear_predict c X).
  Proof.
    intros c X. unfold linear_predict. rewrite bind_rmap. apply bind_ext; [reflexivity|]. intros [l|M]; [|apply pick_relabel].
    rewrite <- mapM_rmap. apply mapM_same. intro x. apply lnth_map.
  Qed.
  Lemma is_ovr_relabel : forall (c : linear A L), is_ovr (relabel_linear f c) = is_ovr c.
  Proof. intro c. unfold is_ovr. cbn [relabel_linear l_multi l_classes l_solver]. rewrite map_length. reflexivity. Qed.
  Lemma logistic_relabel : forall (c : linear A L) X, logistic_predict_proba (relabel_linear f c) X = logistic_predict_proba c X.
  Proof. intros c X. unfold logistic_predict_proba. rewrite is_ovr_relabel. reflexivity. Qed.

  Lemma jll_relabel : forall (m : nb A L) X, jll (relabel_nb f m) X = jll m X.
  Proof.
    intros [g|d|d] X; cbn [relabel_nb jll].
    - assert (E : forall l, gaussian_jll {| g_prior := g_prior g; g_classes := map f (g_classes g); g_sigma := g_sigma g; g_theta := g_theta g |} l = gaussian_jll g l).
      { intro l. unfold gaussian_jll. cbn [g_prior g_classes g_sigma g_theta]. rewrite map_length. reflexivity. }
      rewrite E. destruct (g_classes g) as [|c cl] eqn:EC; cbn [map g_classes]; [reflexivity|].
      destruct (items X) as [l|e]; [|reflexivity]. rewrite <- E. reflexivity.
    - apply bind_ext; [reflexivity|]. intro l. apply mapM_same. intro x. unfold multinomial_row. cbn [d_classes d_log_prob d_log_prior]. rewrite map_length. reflexivity.
    - apply bind_ext; [reflexivity|]. intro l. unfold complement_jll. cbn [d_classes d_log_prob d_log_prior]. rewrite map_length. reflexivity.
  Qed.
  Lemma nb_classes_relabel : forall (m : nb A L), nb_classes (relabel_nb f m) = map f (nb_classes m).
  Proof. intros [g|d|d]; reflexivity. Qed.
  Lemma nb_relabel : forall (m : nb A L) X, nb_predict (relabel_nb f m) X = rmap (map f) (nb_predict m X).
  Proof.
    intros m X. unfold nb_predict. rewrite bind_rmap. apply bind_ext; auto. intro X'. rewrite bind_rmap, jll_relabel. apply bind_ext; auto. intro J.
    rewrite nb_classes_relabel. apply pick_relabel.
  Qed.
  Lemma nb_log_relabel : forall (m : nb A L) X, nb_predict_log_proba (relabel_nb f m) X = nb_predict_log_proba m X.
  Proof. intros m X. unfold nb_predict_log_proba. apply bind_ext; auto. intro X'. rewrite jll_relabel. reflexivity. Qed.

  (** objects *)
  Definition renames (o : obj A L V) (o' : obj A K V) : Prop :=
    both eq (o_transform o) (o_transform o') /\
    both (fun r r' => r' = (rmap (renamed f) (fst r), snd r)) (o_predict o) (o_predict o') /\
    both eq (o_proba o) (o_proba o') /\
    both eq (o_log_proba o) (o_log_proba o') /\
    o_classes o' = option_map (map f) (o_classes o).

  Lemma renames_transformer : forall t, renames (transformer t) (transformer t).
  Proof. intro t. unfold renames, transformer. cbn. repeat split. destruct t; cbn; auto. Qed.
  Lemma renames_classifier : forall p p' pp pp' lp lp' cl,
    (forall X, p' X = rmap (map f) (p X)) -> both eq pp pp' -> both eq lp lp' ->
    renames (classifier p pp lp cl) (classifier p' pp' lp' (map f cl)).
  Proof.
    intros p p' pp pp' lp lp' cl Hp Hpp Hlp. unfold renames, classifier. cbn [o_transform o_predict o_proba o_log_proba o_classes].
    split; [exact I|]. split; [|split; [|split]]; [| | |reflexivity].
    - cbn. intro X. rewrite Hp. destruct (p (as_num X)); reflexivity.
    - destruct pp, pp'; cbn in *; auto. intro X. rewrite Hpp. reflexivity.
    - destruct lp, lp'; cbn in *; auto. intro X. rewrite Hlp. reflexivity.
  Qed.
  Lemma proba_of_renames : forall o o', renames o o' -> alike (proba_of o) (proba_of o').
  Proof. intros o o' (_ & _ & H & _) X. unfold proba_of. destruct (o_proba o), (o_proba o'); cbn in H; try contradiction; auto. rewrite H. reflexivity. Qed.
  Lemma call_renames : forall o o' X, renames o o' -> call_transform o' X = call_transform o X.
  Proof. intros o o' X (H & _). unfold call_transform. destruct (o_transform o), (o_transform o'); cbn in H; try contradiction; auto. Qed.
  Lemma run_renames : forall os os' cur X, Forall2 renames os os' -> run_steps os' cur X = run_steps os cur X.
  Proof.
    intros os os' cur X H. revert cur X. induction H as [|o o' os os' Ho H IH]; intros cur X; [reflexivity|]. cbn [run_steps].
    destruct cur as [Xt|].
    - rewrite (call_renames o o' Xt Ho). destruct (t_out (call_transform o Xt)) as [[y|]|e]; auto.
    - rewrite (call_renames o o' X Ho). destruct (t_out (call_transform o X)) as [y|e]; auto.
  Qed.
  Lemma Forall2_firstn : forall {S T} (R : S -> T -> Prop) n l l', Forall2 R l l' -> Forall2 R (firstn n l) (firstn n l').
  Proof. intros S T R n l l' H. revert n. induction H; intros [|n]; cbn; auto. Qed.
  Lemma Forall2_nth : forall {S T} (R : S -> T -> Prop) n l l', Forall2 R l l' ->
    match nth_error l n, nth_error l' n with Some x, Some y => R x y | None, None => True | _, _ => False end.
  Proof. intros S T R n l l' H. revert n. induction H; intros [|n]; cbn; auto. apply IHForall2. Qed.
  Lemma Forall2_snd : forall {S T N} (R : S -> T -> Prop) (l : list (N * S)) (l' : list (N * T)),
    Forall2 (fun x y => R (snd x) (snd y)) l l' -> Forall2 R (map snd l) (map snd l').
  Proof. intros S T N R l l' H. induction H; cbn; auto. Qed.

  Section Pipe.
    Variables (steps : list (pystr * obj A L V)) (steps' : list (pystr * obj A K V)).
    Hypothesis HS : Forall2 (fun x y => renames (snd x) (snd y)) steps steps'.
    Lemma last_renames : match last_step steps, last_step steps' with Some o, Some o' => renames o o' | None, None => True | _, _ => False end.
    Proof.
      unfold last_step. rewrite <- (Forall2_len _ _ _ HS). pose proof (Forall2_nth _ (List.length steps - 1) _ _ HS) as Q.
      destruct (nth_error steps _), (nth_error steps' _); cbn; auto.
    Qed.
    Lemma init_renames : Forall2 renames (init_steps steps) (init_steps steps').
    Proof. unfold init_steps. rewrite <- (Forall2_len _ _ _ HS). apply Forall2_snd. apply Forall2_firstn. exact HS. Qed.
    Lemma method_renames : forall {T T'} (g : T -> T') (get : obj A L V -> option (data A V -> res T * data A V)) (get' : obj A K V -> option (data A V -> res T' * data A V)),
      (forall o o', renames o o' -> both (fun r r' => r' = (rmap g (fst r), snd r)) (get o) (get' o')) ->
      both (fun r r' => r' = (rmap g (fst r), snd r)) (pipe_method get steps) (pipe_method get' steps').
    Proof.
      intros T T' g get get' H. unfold pipe_method. pose proof last_renames as Q.
      destruct (last_step steps) as [o|], (last_step steps') as [o'|]; try contradiction; [|exact I].
      specialize (H o o' Q). destruct (get o) as [h|], (get' o') as [h'|]; try contradiction; [|exact I]. cbn in H. cbn. intro X.
      rewrite (run_renames _ _ None X init_renames). destruct (t_out (run_steps (init_steps steps) None X)) as [[Xt|]|e]; cbn; auto. rewrite H. reflexivity.
    Qed.
    Lemma pipeline_renames : renames (pipeline steps) (pipeline steps').
    Proof.
      assert (ID : forall T (r : res T), rmap (fun x => x) r = r) by (intros T [x|e]; reflexivity).
      assert (EQ : forall T (m m' : option (data A V -> res T * data A V)), both eq m m' <-> both (fun r r' => r' = (rmap (fun x => x) (fst r), snd r)) m m').
      { intros T m m'. destruct m as [h|], m' as [h'|]; cbn; split; auto; intros H X; specialize (H X); rewrite ?ID in *; destruct (h X) as [a b]; cbn in *; congruence. }
      unfold pipeline, renames. cbn [o_transform o_predict o_proba o_log_proba o_classes].
      split; [|split; [|split; [|split]]].
      - pose proof last_renames as Q. destruct (last_step steps) as [o|], (last_step steps') as [o'|]; try contradiction; [|exact I].
        destruct Q as (Q & _). destruct (o_transform o), (o_transform o'); try contradiction; [|exact I]. cbn. intro X. symmetry. apply run_renames. apply Forall2_snd. exact HS.
      - apply method_renames. intros o o' (_ & H & _). exact H.
      - apply EQ. apply method_renames. intros o o' (_ & _ & H & _). apply EQ. exact H.
      - apply EQ. apply method_renames. intros o o' (_ & _ & _ & H & _). apply EQ. exact H.
      - pose proof last_renames as Q. destruct (last_step steps) as [o|], (last_step steps') as [o'|]; try contradiction; [|reflexivity]. apply Q.
    Qed.
  End Pipe.
  Lemma union_renames : forall (ms : list (pystr * obj A L V)) (ms' : list (pystr * obj A K V)) w,
    Forall2 (fun x y => fst x = fst y /\ renames (snd x) (snd y)) ms ms' -> renames (feature_union ms w) (feature_union ms' w).
  Proof.
    intros ms ms' w H. unfold feature_union, renames. cbn [o_transform o_predict o_proba o_log_proba o_classes]. repeat split.
    cbn. intro X. unfold union_transform. destruct (check_data X) as [X1|e]; [|reflexivity].
    assert (E : transform_all (weighted ms' w) X1 = transform_all (weighted ms w) X1); [|rewrite E; reflexivity].
    clear X. revert X1. induction H as [|x y ms ms' [E1 E2] H IH]; intro X1; [reflexivity|]. unfold weighted in *. cbn [map transform_all].
    rewrite <- E1. unfold transform_one. rewrite (call_renames _ _ X1 E2).
    destruct w as [w|]; [destruct (dlookup str_eqb (fst x) w)|].
    all: match goal with |- match ?s with _ => _ end = _ => destruct s as [y0|]; [|reflexivity] end; rewrite IH; reflexivity.
  Qed.

  Variables (veq : V -> V -> bool) (vnum : A -> V) (U : textlib).
  Notation ob := (obj_of veq vnum U).
  Lemma obj_renames : forall e : est A L V, renames (ob e) (ob (relabel f e)).
  Proof.
    intro e. pattern e. apply est_rec'; clear e.
    - intros ms fs cl H. cbn [relabel obj_of].
      assert (Q : Forall2 alike (map (fun m => proba_of (ob m)) ms) (map (fun m => proba_of (ob m)) (map (relabel f) ms))).
      { induction H; cbn; constructor; auto. apply proba_of_renames. assumption. }
      assert (P := fun X => bagging_proba_relabel _ _ fs cl (map f cl) X Q).
      apply renames_classifier.
      + intro X. unfold bagging_predict. rewrite P, bind_rmap. apply bind_ext; auto. intro p. rewrite bind_rmap. apply bind_ext; auto. intro am. apply picks_relabel.
      + intro X. symmetry. apply P.
      + intro X. unfold bagging_predict_log_proba. rewrite P. reflexivity.
    - intros ts init lr nf ls cl H. cbn [relabel obj_of].
      assert (P : forall X, _ = _) by (intro X; refine (gb_raw_relabel ts (option_map (fun i => proba_of (ob i)) init) (option_map (fun i => proba_of (ob i)) (option_map (relabel f) init)) lr nf ls cl (map f cl) X _);
        destruct init; cbn; auto; apply proba_of_renames; exact H).
      assert (PP : forall X, gb_predict_proba {| gb_estimators := map (map (relabel_tree f)) ts; gb_init := option_map (fun i => proba_of (ob i)) (option_map (relabel f) init); gb_lr := lr; gb_nfeat := nf; gb_loss := ls; gb_classes := map f cl |} X =
         gb_predict_proba {| gb_estimators := ts; gb_init := option_map (fun i => proba_of (ob i)) init; gb_lr := lr; gb_nfeat := nf; gb_loss := ls; gb_classes := cl |} X).
      { intro X. unfold gb_predict_proba. rewrite P. reflexivity. }
      apply renames_classifier.
      + intro X. unfold gb_predict. rewrite PP, bind_rmap. apply bind_ext; auto. intro p. apply pick_relabel.
      + intro X. symmetry. apply PP.
      + intro X. unfold gb_predict_log_proba. rewrite PP. reflexivity.
    - intros steps H. cbn [relabel obj_of]. rewrite map_map. apply pipeline_renames. induction H; cbn [map]; constructor; auto.
    - intros ms w H. cbn [relabel obj_of]. rewrite map_map. apply union_renames. induction H; cbn [map]; constructor; auto.
    - intros e He. destruct e; try contradiction; cbn [relabel obj_of]; try apply renames_transformer.
      + apply renames_classifier; [apply tree_relabel| |].
        * intro X. symmetry. apply tree_proba_relabel.
        * intro X. unfold tree_predict_log_proba. rewrite tree_proba_relabel. reflexivity.
      + unfold renames. cbn. repeat split. intro X. rewrite reg_relabel. destruct (reg_predict t (as_num X)); reflexivity.
      + apply renames_classifier; [|intro X; symmetry; apply xgb_proba_relabel|exact I].
        intro X. unfold xgb_predict. rewrite xgb_proba_relabel, bind_rmap. apply bind_ext; auto. intro p. apply pick_relabel.
      + destruct k.
        * apply renames_classifier; [apply linear_relabel| |].
          -- intro X. symmetry. apply logistic_relabel.
          -- intro X. unfold logistic_predict_log_proba. rewrite logistic_relabel. reflexivity.
        * assert (E : check_proba (relabel_linear f c) = check_proba c) by reflexivity. rewrite E.
          apply renames_classifier; [apply linear_relabel| |]; destruct (is_ok (check_proba c)); cbn; auto.
        * apply renames_classifier; [apply linear_relabel| |]; exact I.
      + rewrite nb_classes_relabel. apply renames_classifier; [apply nb_relabel| |].
        * intro X. unfold nb_predict_proba. rewrite nb_log_relabel. reflexivity.
        * intro X. symmetry. apply nb_log_relabel.
      + unfold renames. cbn. repeat split. intro X. destruct (dummy_predict d (as_sized X)); reflexivity.
  Qed.
End Relabel.

(** C84: nested pipelines. *)
Section Nest.
  Context {A : arith} {L V : Type}.
  Implicit Types o : obj A L V.

  Lemma run_app : forall (a b : list (obj A L V)) cur X,
    run_steps (a ++ b) cur X =
    match t_out (run_steps a cur X) with
    | Err e => {| t_out := Err e; t_after := t_after (run_steps a cur X) |}
    | Ok y => run_steps b y (t_after (run_steps a cur X))
    end.
  Proof.
    induction a as [|o a IH]; intros b cur X; [reflexivity|]. cbn [app run_steps]. destruct cur as [Xt|].
    - destruct (t_out (call_transform o Xt)) as [[y|]|e]; auto.
    - destruct (t_out (call_transform o X)) as [y|e]; auto.
  Qed.
  (** running from an intermediate object *)
  Lemma run_some : forall (a : list (obj A L V)) Xt X,
    run_steps a (Some Xt) X =
    {| t_out := (y <- t_out (run_steps a None Xt) ;; Ok (Some (match y with None => t_after (run_steps a None Xt) | Some Y => Y end)));
       t_after := X |}.
  Proof.
    assert (S : forall (a : list (obj A L V)) Y X X', t_out (run_steps a (Some Y) X) = t_out (run_steps a (Some Y) X')).
    { induction a as [|o a IH]; intros Y X X'; [reflexivity|]. cbn [run_steps]. destruct (t_out (call_transform o Y)) as [[y|]|e]; auto. }
    induction a as [|o a IH]; intros Xt X; [reflexivity|]. cbn [run_steps].
    destruct (t_out (call_transform o Xt)) as [[y|]|e]; [| |reflexivity].
    - rewrite (IH y X), (IH y (t_after (call_transform o Xt))). cbn [t_out t_after].
      destruct (t_out (run_steps a None y)) as [[z|]|e]; reflexivity.
    - apply IH.
  Qed.
  Lemma last_app : forall (a : list (pystr * obj A L V)) b, b <> [] -> last_step (a ++ b) = last_step b.
  Proof.
    intros a b H. unfold last_step. rewrite app_length, nth_error_app2 by (destruct b; [congruence|cbn; lia]).
    do 2 f_equal. destruct b; [congruence|]. cbn. lia.
  Qed.
  Lemma init_app : forall (a : list (pystr * obj A L V)) b, b <> [] -> init_steps (a ++ b) = map snd a ++ init_steps b.
  Proof.
    intros a b H. unfold init_steps. rewrite app_length. replace (List.length a + List.length b - 1) with (List.length a + (List.length b - 1)) by (destruct b; [congruence|cbn; lia]).
    rewrite firstn_app_2, map_app. reflexivity.
  Qed.
  Lemma inner_call : forall (inner : list (pystr * obj A L V)) o g X, last_step inner = Some o -> o_transform o = Some g ->
    call_transform (pipeline inner) X = run_steps (map snd inner) None X.
  Proof. intros inner o g X E E'. unfold call_transform, pipeline. cbn [o_transform]. rewrite E, E'. reflexivity. Qed.
  Lemma run_nested : forall (inner : list (pystr * obj A L V)) o g rest cur X, last_step inner = Some o -> o_transform o = Some g ->
    run_steps (pipeline inner :: rest) cur X = run_steps (map snd inner ++ rest) cur X.
  Proof.
    intros inner o g rest cur X E E'. rewrite run_app. cbn [run_steps]. destruct cur as [Xt|].
    - rewrite (inner_call inner o g Xt E E'), (run_some (map snd inner) Xt X). cbn [t_out t_after].
      destruct (t_out (run_steps (map snd inner) None Xt)) as [[y|]|e]; reflexivity.
    - rewrite (inner_call inner o g X E E'). destruct (t_out (run_steps (map snd inner) None X)) as [y|e]; reflexivity.
  Qed.
  Lemma last_some : forall (b : list (pystr * obj A L V)), b <> [] -> exists o, last_step b = Some o.
  Proof.
    intros b H. unfold last_step. destruct (nth_error b (List.length b - 1)) as [p|] eqn:E; [eexists; reflexivity|].
    apply nth_error_None in E. destruct b; [congruence|]. cbn in E. lia.
  Qed.

  (** in the middle *)
  Lemma nested_middle : forall (pre inner post : list (pystr * obj A L V)) nm o g, post <> [] ->
    last_step inner = Some o -> o_transform o = Some g ->
    same_obj (pipeline (pre ++ (nm, pipeline inner) :: post)) (pipeline (pre ++ inner ++ post)).
  Proof.
    intros pre inner post nm o g NE E E'.
    change (pre ++ (nm, pipeline inner) :: post) with (pre ++ [(nm, pipeline inner)] ++ post).
    assert (NE2 : inner ++ post <> []) by (destruct inner; [exact NE|discriminate]).
    assert (EL : forall x, last_step (pre ++ [(nm, x)] ++ post) = last_step post) by (intro x; rewrite !last_app by (try discriminate; exact NE); reflexivity).
    assert (EL2 : last_step (pre ++ inner ++ post) = last_step post) by (rewrite !last_app by (try exact NE; exact NE2); reflexivity).
    assert (ER : forall rest cur X, run_steps (map snd pre ++ pipeline inner :: rest) cur X = run_steps (map snd pre ++ map snd inner ++ rest) cur X).
    { intros rest cur X. rewrite !run_app. destruct (t_out (run_steps (map snd pre) cur X)) as [y|e]; auto. rewrite (run_nested inner o g) by assumption. rewrite run_app. reflexivity. }
    assert (EM : forall T (get : obj A L V -> option (data A V -> res T * data A V)),
      both eq (pipe_method get (pre ++ [(nm, pipeline inner)] ++ post)) (pipe_method get (pre ++ inner ++ post))).
    { intros T get. unfold pipe_method. rewrite EL, EL2. destruct (last_step post) as [p|]; [|exact I]. destruct (get p) as [h|]; [|exact I]. intro X.
      rewrite !init_app by (try discriminate; try exact NE; exact NE2). cbn [map snd app]. rewrite ER. reflexivity. }
    unfold same_obj. split; [|split; [|split; [|split]]]; [|apply EM|apply EM|apply EM|].
    - unfold pipeline at 1 3. cbn [o_transform]. rewrite EL, EL2. destruct (last_step post) as [p|]; [|exact I]. destruct (o_transform p); [|exact I]. intro X.
      rewrite !map_app. cbn [map snd app]. apply ER.
    - unfold pipeline at 1 3. cbn [o_classes]. rewrite EL, EL2. reflexivity.
  Qed.
  (** at the end *)
  Lemma nested_last : forall (pre inner : list (pystr * obj A L V)) nm, inner <> [] ->
    same_obj (pipeline (pre ++ [(nm, pipeline inner)])) (pipeline (pre ++ inner)).
  Proof.
    intros pre inner nm NE. destruct (last_some inner NE) as [o Eo].
    assert (EL : last_step (pre ++ [(nm, pipeline inner)]) = Some (pipeline inner)) by (rewrite last_app by discriminate; reflexivity).
    assert (EL2 : last_step (pre ++ inner) = Some o) by (rewrite last_app by exact NE; exact Eo).
    assert (EM : forall T (get : obj A L V -> option (data A V -> res T * data A V)),
      get (pipeline inner) = pipe_method get inner ->
      both eq (pipe_method get (pre ++ [(nm, pipeline inner)])) (pipe_method get (pre ++ inner))).
    { intros T get EG. unfold pipe_method at 1. rewrite EL, EG. unfold pipe_method. rewrite EL2, Eo. destruct (get o) as [h|]; [|exact I]. intro X.
      rewrite !init_app by (try discriminate; exact NE). cbn [init_steps map firstn List.length Nat.sub]. rewrite app_nil_r, run_app.
      destruct (t_out (run_steps (map snd pre) None X)) as [[y|]|e] eqn:ER; cbn [t_out t_after]; [|reflexivity|reflexivity].
      rewrite run_some. cbn [t_out t_after]. destruct (t_out (run_steps (init_steps inner) None y)) as [[z|]|e]; reflexivity. }
    unfold same_obj. split; [|split; [|split; [|split]]]; [|apply EM; reflexivity|apply EM; reflexivity|apply EM; reflexivity|].
    - assert (EP : forall l : list (pystr * obj A L V), o_transform (pipeline l) =
        match last_step l with None => None | Some x => match o_transform x with None => None | Some _ => Some (run_steps (map snd l) None) end end) by reflexivity.
      rewrite (EP (pre ++ [(nm, pipeline inner)])), EL, (EP inner), Eo, (EP (pre ++ inner)), EL2. destruct (o_transform o) as [g|] eqn:Eg; [|exact I]. intro X.
      rewrite !map_app. cbn [map snd]. rewrite !run_app. destruct (t_out (run_steps (map snd pre) None X)) as [y|e]; [|reflexivity].
      change (run_steps [pipeline inner] y (t_after (run_steps (map snd pre) None X)) = run_steps (map snd inner) y (t_after (run_steps (map snd pre) None X))).
      rewrite (run_nested inner o g) by assumption. rewrite app_nil_r. reflexivity.
    - unfold pipeline at 1. cbn [o_classes]. rewrite EL. unfold pipeline. cbn [o_classes]. rewrite EL2, Eo. reflexivity.
  Qed.
  Lemma single : forall nm o, same_obj (pipeline [(nm, o)]) o.
  Proof.
    intros nm o. assert (EM : forall T (get : obj A L V -> option (data A V -> res T * data A V)), both eq (pipe_method get [(nm, o)]) (get o)).
    { intros T get. unfold pipe_method. cbn [last_step List.length Nat.sub nth_error option_map snd]. destruct (get o); [|exact I]. intro X. reflexivity. }
    unfold same_obj. split; [|split; [|split; [|split]]]; [|apply EM|apply EM|apply EM|reflexivity].
    unfold pipeline. cbn [o_transform last_step List.length Nat.sub nth_error option_map snd]. destruct (o_transform o) as [g|] eqn:E; [|exact I]. intro X.
    cbn [map snd run_steps]. unfold call_transform. rewrite E. destruct (g X) as [[y|e] Z]; reflexivity.
  Qed.
End Nest.
