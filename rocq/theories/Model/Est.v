(** All converted scikit-learn / xgboost estimators as one type, and the
    attributes of each (pure_sklearn, every module). *)
From Coq Require Import String.
From Verif Require Import Model.Py Model.Arith Model.Utils Model.Base Model.Hash Model.DictVec
  Model.Text Model.Pipeline Model.Tree Model.Ensemble Model.Xgb Model.Linear Model.NaiveBayes
  Model.Dummy Model.Preprocessing Model.Encoders Model.Impute.

Section Est.
  Context {A : arith} {L V : Type}.
  Variable (veq : V -> V -> bool).
  (** a number used as a category *)
  Variable (vnum : A -> V).
  Variable (U : textlib).

  (** LogisticRegression; SGDClassifier, Perceptron and
      PassiveAggressiveClassifier; RidgeClassifier and LinearSVC *)
  Inductive lkind := KLogistic | KSgd | KPlain.

  (** One constructor per converted class; forests and BaggingClassifier are
      [EBagging]. *)
  Inductive est :=
  | ETree (t : tree A L)
  | EReg (t : tree A L)
  | EBagging (members : list est) (feats : option (list (list Z))) (classes : list L)
  | EGb (trees : list (list (tree A L))) (init : option est) (lr : A) (nfeat : Z)
        (ls : loss) (classes : list L)
  | EXgb (g : xgb A L)
  | ELinear (k : lkind) (c : linear A L)
  | ENb (m : nb A L)
  | EDummy (d : dummy A)
  | ENormalizer (norm : pystr)
  | EStd (s : std_scaler A)
  | EMinMax (s : minmax A)
  | EMaxAbs (scale : option (list A))
  | EOneHot (e : encoder V)
  | EOrdinal (e : encoder V)
  | EIndicator (t : indicator A)
  | EImputer (s : imputer A)
  | EDictVec (d : dictvec)
  | ECount (c : countvec)
  | ETfidf (t : tfidf A)
  | ETfidfVec (c : countvec) (t : tfidf A)
  | EHashVec (h : hashvec)
  | EPipeline (steps : list (pystr * est))
  | EUnion (members : list (pystr * est)) (weights : option (dict pystr A)).

  (** Data given to an estimator expecting another kind.  Simplification:
      numeric code applied to documents, mappings or categories behaves as on
      an object that is not a list (TypeError). *)
  Definition as_num (X : data A V) : arr A := match X with DNum X => X | _ => NotList end.
  Definition arr_map {T W} (f : T -> W) (X : arr T) : arr W :=
    match X with
    | Arr l => Arr (map (fun x => match x with
                                  | Sc t => Sc (f t)
                                  | Ls r => Ls (map f r)
                                  | Di d => Di (map (fun kv => (fst kv, f (snd kv))) d)
                                  end) l)
    | Sp rows sz dt => Sp (map (map (fun kv => (fst kv, f (snd kv)))) rows) sz dt
    | ExnObj => ExnObj
    | NotList => NotList
    end.
  (** DummyClassifier only takes the length of its argument (dummy.py:33-40),
      whatever it holds. *)
  Definition as_sized (X : data A V) : arr A :=
    match X with
    | DNum X => X
    | _ => match data_len X with Ok n => Arr (rep (Ls []) n) | Err _ => NotList end
    end.
  (** Encoders also accept numbers. *)
  Definition as_cats (X : data A V) : arr V :=
    match X with DCats X => X | DNum X => arr_map vnum X | _ => NotList end.
  (** Iterating over something else than documents, or decoding one, raises
      TypeError. *)
  Definition as_docs (X : data A V) : rawdocs :=
    match X with DDocs r => r | _ => RawDocs [DocOther] end.

  (** A transformer that leaves X unchanged and returns a new object. *)
  Definition fresh (f : data A V -> res (arr A)) : option (data A V -> tres A V) :=
    Some (fun X => {| t_out := Y <- f X ;; Ok (Some (DNum Y)); t_after := X |}).
  Definition rows_out (r : res (list (list A))) : res (arr A) := M <- r ;; Ok (ll M).
  (** A prediction that leaves X unchanged. *)
  Definition reads {T} (f : arr A -> res T) : option (data A V -> res T * data A V) :=
    Some (fun X => (f (as_num X), X)).

  Definition transformer (t : option (data A V -> tres A V)) : obj A L V :=
    {| o_transform := t; o_predict := None; o_proba := None; o_log_proba := None;
       o_classes := None |}.
  Definition classifier (p : arr A -> res (list L)) (pp lp : option (arr A -> res (list (list A))))
             (classes : list L) : obj A L V :=
    {| o_transform := None;
       o_predict := reads (fun X => l <- p X ;; Ok (PLab l));
       o_proba := match pp with None => None | Some f => reads f end;
       o_log_proba := match lp with None => None | Some f => reads f end;
       o_classes := Some classes |}.

  (** _data.py:136-141, 147-152: with nothing to do StandardScaler returns the
      object it was given (or the exception object for an empty list) *)
  Definition std_same (s : std_scaler A) (X : arr A) : bool :=
    match X with
    | Sp _ _ _ => negb (ss_mean_on s) && match ss_scale s with None => true | _ => false end
    | Arr (_ :: _) => negb (ss_mean_on s) && negb (ss_std_on s)
    | _ => false
    end.
  Definition std_method (s : std_scaler A) (X : data A V) : tres A V :=
    {| t_out := Y <- std_transform s (as_num X) ;;
                Ok (if std_same s (as_num X) then None else Some (DNum Y));
       t_after := X |}.

  (** text.py:421-443: without normalisation the (updated) argument is returned *)
  Definition tfidf_method (t : tfidf A) (X : data A V) : tres A V :=
    match X with
    | DNum X =>
        let '(r, X') := tfidf_transform t X in
        {| t_out := Y <- r ;; Ok (match tf_norm t with None => None | Some _ => Some (DNum Y) end);
           t_after := DNum X' |}
    | _ => {| t_out := Err TypeError; t_after := X |}
    end.

  (** [estimator.predict_proba] as a function on matrices.  Simplification:
      a gradient boosting init estimator does not modify the matrix it is
      given (only pipelines containing a TfidfTransformer do, and only on dict
      rows).  The members of a bagging ensemble get new lists (_feat_slice),
      those of a forest are trees. *)
  Definition proba_of (o : obj A L V) : proba_fun A :=
    fun X => match o_proba o with
             | None => Err AttributeError
             | Some f => fst (f (DNum X))
             end.

  (** The attributes of each estimator.  SGDClassifier's predict_proba and
      predict_log_proba are properties that raise AttributeError
      (_stochastic_gradient.py:23-38,50-63). *)
  Fixpoint obj_of (e : est) : obj A L V :=
    match e with
    | ETree t =>
        classifier (tree_predict t) (Some (tree_predict_proba t))
                   (Some (tree_predict_log_proba t)) (t_classes t)
    | EReg t =>
        {| o_transform := None; o_predict := reads (fun X => l <- reg_predict t X ;; Ok (PNum l));
           o_proba := None; o_log_proba := None; o_classes := None |}
    | EBagging ms fs cl =>
        let b := {| b_members := map (fun m => proba_of (obj_of m)) ms;
                    b_feats := fs; b_classes := cl |} in
        classifier (bagging_predict b) (Some (bagging_predict_proba b))
                   (Some (bagging_predict_log_proba b)) cl
    | EGb ts init lr nf ls cl =>
        let g := {| gb_estimators := ts;
                    gb_init := option_map (fun i => proba_of (obj_of i)) init;
                    gb_lr := lr; gb_nfeat := nf; gb_loss := ls; gb_classes := cl |} in
        classifier (gb_predict g) (Some (gb_predict_proba g)) (Some (gb_predict_log_proba g)) cl
    | EXgb g => classifier (xgb_predict g) (Some (xgb_predict_proba g)) None (xg_classes g)
    | ELinear KPlain c => classifier (linear_predict c) None None (l_classes c)
    | ELinear KLogistic c =>
        classifier (linear_predict c) (Some (logistic_predict_proba c))
                   (Some (logistic_predict_log_proba c)) (l_classes c)
    | ELinear KSgd c =>
        classifier (linear_predict c)
                   (if is_ok (check_proba c) then Some (sgd_predict_proba_inner c) else None)
                   (if is_ok (check_proba c) then Some (sgd_predict_log_proba c) else None)
                   (l_classes c)
    | ENb m =>
        classifier (nb_predict m) (Some (nb_predict_proba m)) (Some (nb_predict_log_proba m))
                   (nb_classes m)
    | EDummy d =>
        {| o_transform := None;
           o_predict := Some (fun X => (l <- dummy_predict d (as_sized X) ;; Ok (PIdx l), X));
           o_proba := Some (fun X => (dummy_predict_proba d (as_sized X), X));
           o_log_proba := Some (fun X => (dummy_predict_log_proba d (as_sized X), X));
           o_classes := None |}
    | ENormalizer nm => transformer (fresh (fun X => normalizer_transform nm (as_num X)))
    | EStd s => transformer (Some (std_method s))
    | EMinMax s => transformer (fresh (fun X => minmax_transform s (as_num X)))
    | EMaxAbs s => transformer (fresh (fun X => maxabs_transform s (as_num X)))
    | EOneHot e => transformer (fresh (fun X => onehot_transform veq e (as_cats X)))
    | EOrdinal e => transformer (fresh (fun X => rows_out (ordinal_transform veq e (as_cats X))))
    | EIndicator t => transformer (fresh (fun X => rows_out (indicator_transform t (as_num X))))
    | EImputer s => transformer (fresh (fun X => rows_out (imputer_transform s (as_num X))))
    | EDictVec d =>
        transformer (fresh (fun X => match X with DMaps m => dv_transform d m | _ => Err TypeError end))
    | ECount c => transformer (fresh (fun X => count_transform U c (as_docs X)))
    | ETfidf t => transformer (Some (tfidf_method t))
    | ETfidfVec c t => transformer (fresh (fun X => tfidf_vec_transform U c t (as_docs X)))
    | EHashVec h => transformer (fresh (fun X => hashvec_transform U h (as_docs X)))
    | EPipeline steps => pipeline (map (fun ne => (fst ne, obj_of (snd ne))) steps)
    | EUnion ms w => feature_union (map (fun ne => (fst ne, obj_of (snd ne))) ms) w
    end.
End Est.
Arguments est A L V : clear implicits.
