(** Model of pure_sklearn/xgboost/_classes.py. *)
From Coq Require Import String.
From Verif Require Import Model.Py Model.Arith Model.Utils Model.Base Model.Tree.

Section Xgb.
  Context {A : arith} {L : Type}.

  (** A row of [Booster.trees_to_dataframe()]. *)
  Record df_row := {
    d_tree : Z; d_feature : pystr; d_split : A;
    d_yes : option pystr; d_no : option pystr; d_gain : A }.

  (** What the constructor reads from the fitted XGBClassifier. *)
  Record xgb_src := {
    xs_objective : pystr;
    xs_booster : pystr;
    xs_classes : list L;
    xs_nclasses : Z;
    xs_nest : Z;
    xs_df : option (list df_row);   (* None: no trees_to_dataframe *)
  }.

  (** [estimators_[i]]: a tree (two classes) or a list of trees. *)
  Inductive est_row := One (t : tree A L) | Many (l : list (tree A L)).

  (** xgboost/_classes.py:25-44: attributes after conversion. *)
  Record xgb := {
    xg_objective : pystr;
    xg_classes : list L;
    xg_nclasses : Z;
    xg_nest : Z;
    xg_estimators : list est_row;
  }.

  (** xgboost/_classes.py:58,64: [tree_df[tree_df["Tree"] == idx].to_dict("list")] *)
  Definition df_tree (df : list df_row) (idx : Z) : xgb_tree A :=
    let rows := filter (fun r => (d_tree r =? idx)%Z) df in
    {| x_feature := map d_feature rows; x_split := map d_split rows;
       x_yes := map d_yes rows; x_no := map d_no rows; x_gain := map d_gain rows |}.

  (** xgboost/_classes.py:46-68 [_build_estimators] *)
  Definition build_row (df : list df_row) (nclasses idx : Z) : res (est_row * Z) :=
    if (nclasses =? 2)%Z then
      t <- tree_of_xgb (df_tree df idx) ;; Ok (One t, (idx + 1)%Z)
    else
      '(ts, idx') <- foldM (fun st _ =>
                              t <- tree_of_xgb (df_tree df (snd st)) ;;
                              Ok (fst st ++ [t], (snd st + 1)%Z))
                           (zrange 0 nclasses) ([], idx) ;;
      Ok (Many ts, idx').
  Definition build_estimators (df : list df_row) (nclasses nest : Z) : res (list est_row) :=
    '(rows, _) <- foldM (fun st _ =>
                           '(r, idx') <- build_row df nclasses (snd st) ;;
                           Ok (fst st ++ [r], idx'))
                        (zrange 0 nest) ([], 0%Z) ;;
    Ok rows.

  Definition SUPPORTED_OBJ : list pystr := [lit "binary:logistic"; lit "multi:softprob"].

  (** xgboost/_classes.py:25-44 [__init__] *)
  Definition xgb_convert (s : xgb_src) : res xgb :=
    guard (mem str_eqb (xs_objective s) SUPPORTED_OBJ) ValueError ;;
    guard (str_eqb (xs_booster s) (lit "gbtree")) ValueError ;;
    df <- (match xs_df s with None => Err OtherException | Some df => Ok df end) ;;
    es <- build_estimators df (xs_nclasses s) (xs_nest s) ;;
    Ok {| xg_objective := xs_objective s; xg_classes := xs_classes s;
          xg_nclasses := xs_nclasses s; xg_nest := xs_nest s; xg_estimators := es |}.

  (** xgboost/_classes.py:70-79 [_predict]; indexing a tree raises TypeError *)
  Definition xgb_scores (g : xgb) (X : arr A) : res (list (list A)) :=
    mapM (fun cls =>
            n <- len X ;;
            foldM (fun acc e =>
                     row <- lget (xg_estimators g) e ;;
                     t <- (match row with One _ => Err TypeError | Many l => lget l cls end) ;;
                     p <- reg_predict t X ;;
                     Ok (zip_with add acc p))
                  (zrange 0 (xg_nest g)) (rep zero n))
         (zrange 0 (xg_nclasses g)).

  (** xgboost/_classes.py:81-86 [_predict_binary]; a list has no [predict] *)
  Definition xgb_binary_scores (g : xgb) (X : arr A) : res (list A) :=
    n <- len X ;;
    foldM (fun acc row =>
             p <- (match row with One t => reg_predict t X | Many _ => Err AttributeError end) ;;
             Ok (zip_with add acc p))
          (xg_estimators g) (rep zero n).

  (** xgboost/_classes.py:92-109 *)
  Definition xgb_predict_proba (g : xgb) (X : arr A) : res (list (list A)) :=
    X' <- check_array X HError ;;
    if str_eqb (xg_objective g) (lit "multi:softprob") then
      preds <- xgb_scores g X' ;;
      n <- len X' ;;
      mapM (fun i => r <- mapM (fun j => p <- lget preds j ;; lnth p i)
                               (zrange 0 (xg_nclasses g)) ;;
                     sfmax r) (range n)
    else if str_eqb (xg_objective g) (lit "binary:logistic") then
      preds <- xgb_binary_scores g X' ;;
      out <- mapM expit preds ;;
      Ok (map (fun x => [sub one x; x]) out)
    else Err ValueError.

  (** xgboost/_classes.py:88-90 *)
  Definition xgb_predict (g : xgb) (X : arr A) : res (list L) :=
    p <- xgb_predict_proba g X ;;
    mapM (fun a => i <- argmax a ;; lnth (xg_classes g) i) p.
End Xgb.
Arguments df_row A : clear implicits.
Arguments xgb_src A L : clear implicits.
Arguments est_row A L : clear implicits.
Arguments xgb A L : clear implicits.
