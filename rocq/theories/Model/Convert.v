(** Model of pure_sklearn/map.py, the checks of pure_sklearn/utils.py made at
    conversion, and the constructors of all converted classes. *)
From Coq Require Import String.
From Verif Require Import Model.Py Model.Arith Model.Utils Model.Base Model.Hash Model.DictVec
  Model.Text Model.Pipeline Model.Tree Model.Ensemble Model.Xgb Model.Linear Model.NaiveBayes
  Model.Dummy Model.Preprocessing Model.Encoders Model.Impute Model.Est.

(** map.py:5-40 [MAPPING] *)
Definition MAPPING : dict pystr pystr :=
  [ (lit "LogisticRegression", lit "pure_sklearn.linear_model.LogisticRegressionPure");
    (lit "RidgeClassifier", lit "pure_sklearn.linear_model.RidgeClassifierPure");
    (lit "SGDClassifier", lit "pure_sklearn.linear_model.SGDClassifierPure");
    (lit "Perceptron", lit "pure_sklearn.linear_model.PerceptronPure");
    (lit "PassiveAggressiveClassifier", lit "pure_sklearn.linear_model.PassiveAggressiveClassifierPure");
    (lit "LinearSVC", lit "pure_sklearn.svm.LinearSVCPure");
    (lit "DecisionTreeClassifier", lit "pure_sklearn.tree.DecisionTreeClassifierPure");
    (lit "DecisionTreeRegressor", lit "pure_sklearn.tree.DecisionTreeRegressorPure");
    (lit "ExtraTreeClassifier", lit "pure_sklearn.tree.ExtraTreeClassifierPure");
    (lit "ExtraTreeRegressor", lit "pure_sklearn.tree.ExtraTreeRegressorPure");
    (lit "RandomForestClassifier", lit "pure_sklearn.ensemble.RandomForestClassifierPure");
    (lit "BaggingClassifier", lit "pure_sklearn.ensemble.BaggingClassifierPure");
    (lit "GradientBoostingClassifier", lit "pure_sklearn.ensemble.GradientBoostingClassifierPure");
    (lit "XGBClassifier", lit "pure_sklearn.xgboost.XGBClassifierPure");
    (lit "ExtraTreesClassifier", lit "pure_sklearn.ensemble.ExtraTreesClassifierPure");
    (lit "GaussianNB", lit "pure_sklearn.naive_bayes.GaussianNBPure");
    (lit "MultinomialNB", lit "pure_sklearn.naive_bayes.MultinomialNBPure");
    (lit "ComplementNB", lit "pure_sklearn.naive_bayes.ComplementNBPure");
    (lit "SimpleImputer", lit "pure_sklearn.impute.SimpleImputerPure");
    (lit "MissingIndicator", lit "pure_sklearn.impute.MissingIndicatorPure");
    (lit "DummyClassifier", lit "pure_sklearn.dummy.DummyClassifierPure");
    (lit "Pipeline", lit "pure_sklearn.pipeline.PipelinePure");
    (lit "FeatureUnion", lit "pure_sklearn.pipeline.FeatureUnionPure");
    (lit "OneHotEncoder", lit "pure_sklearn.preprocessing.OneHotEncoderPure");
    (lit "OrdinalEncoder", lit "pure_sklearn.preprocessing.OrdinalEncoderPure");
    (lit "StandardScaler", lit "pure_sklearn.preprocessing.StandardScalerPure");
    (lit "MinMaxScaler", lit "pure_sklearn.preprocessing.MinMaxScalerPure");
    (lit "MaxAbsScaler", lit "pure_sklearn.preprocessing.MaxAbsScalerPure");
    (lit "Normalizer", lit "pure_sklearn.preprocessing.NormalizerPure");
    (lit "DictVectorizer", lit "pure_sklearn.feature_extraction.DictVectorizerPure");
    (lit "TfidfVectorizer", lit "pure_sklearn.feature_extraction.text.TfidfVectorizerPure");
    (lit "CountVectorizer", lit "pure_sklearn.feature_extraction.text.CountVectorizerPure");
    (lit "TfidfTransformer", lit "pure_sklearn.feature_extraction.text.TfidfTransformerPure");
    (lit "HashingVectorizer", lit "pure_sklearn.feature_extraction.text.HashingVectorizerPure") ].

(** The importable modules MAPPING may name, with the class names bound in
    each: linear_model/__init__.py:5-10, svm/__init__.py:6, tree/__init__.py:5-10,
    ensemble/__init__.py:5-7, xgboost/__init__.py:5, naive_bayes.py:48,88,116,
    impute/__init__.py:5, dummy.py:10, pipeline.py:67,154,
    preprocessing/__init__.py:5-12, feature_extraction/__init__.py:6,
    feature_extraction/text.py:325,384,403,446. *)
Definition MODULES : list (pystr * list pystr) :=
  [ (lit "pure_sklearn.linear_model",
     [lit "LinearClassifierMixinPure"; lit "LogisticRegressionPure"; lit "RidgeClassifierPure";
      lit "SGDClassifierPure"; lit "PerceptronPure"; lit "PassiveAggressiveClassifierPure"]);
    (lit "pure_sklearn.svm", [lit "LinearSVCPure"]);
    (lit "pure_sklearn.tree",
     [lit "DecisionTreeClassifierPure"; lit "ExtraTreeClassifierPure";
      lit "DecisionTreeRegressorPure"; lit "ExtraTreeRegressorPure"]);
    (lit "pure_sklearn.ensemble",
     [lit "RandomForestClassifierPure"; lit "ExtraTreesClassifierPure";
      lit "BaggingClassifierPure"; lit "GradientBoostingClassifierPure"]);
    (lit "pure_sklearn.xgboost", [lit "XGBClassifierPure"]);
    (lit "pure_sklearn.naive_bayes",
     [lit "GaussianNBPure"; lit "MultinomialNBPure"; lit "ComplementNBPure"]);
    (lit "pure_sklearn.impute", [lit "SimpleImputerPure"; lit "MissingIndicatorPure"]);
    (lit "pure_sklearn.dummy", [lit "DummyClassifierPure"]);
    (lit "pure_sklearn.pipeline", [lit "PipelinePure"; lit "FeatureUnionPure"]);
    (lit "pure_sklearn.preprocessing",
     [lit "OneHotEncoderPure"; lit "OrdinalEncoderPure"; lit "StandardScalerPure";
      lit "MinMaxScalerPure"; lit "MaxAbsScalerPure"; lit "NormalizerPure"]);
    (lit "pure_sklearn.feature_extraction", [lit "DictVectorizerPure"]);
    (lit "pure_sklearn.feature_extraction.text",
     [lit "CountVectorizerPure"; lit "TfidfVectorizerPure"; lit "TfidfTransformerPure";
      lit "HashingVectorizerPure"]) ].

(** [sep.join(l)] *)
Fixpoint str_join (sep : pystr) (l : list pystr) : pystr :=
  match l with
  | [] => []
  | [w] => w
  | w :: t => w ++ sep ++ str_join sep t
  end.

(** map.py:43-45 [_instantiate_class]: ImportError, or AttributeError *)
Definition instantiate_class (module name : pystr) : res (pystr * pystr) :=
  match dlookup str_eqb module MODULES with
  | None => Err OtherException
  | Some classes => guard (mem str_eqb name classes) AttributeError ;; Ok (module, name)
  end.

(** map.py:48-58 [convert_estimator] up to the call of the class: the module
    and class used for an object of class [est_name] *)
Definition dispatch (est_name : pystr) : res (pystr * pystr) :=
  match dlookup str_eqb est_name MAPPING with
  | None => Err ValueError
  | Some pure_est_name =>
      let parts := str_split_on 46 pure_est_name in
      name <- lget parts (-1) ;;
      instantiate_class (str_join (lit ".") (removelast parts)) name
  end.

(** distutils.version.LooseVersion: the components of a version string.
    component_re splits off runs of digits, runs of a-z and single dots; dots
    are dropped and runs of digits become ints.  Simplification: ASCII digits
    only. *)
Inductive vtok := VInt (n : Z) | VStr (s : pystr).
Definition char_class (c : Z) : nat :=
  if is_digit c then 0 else if ((97 <=? c) && (c <=? 122))%Z then 1 else if (c =? 46)%Z then 2 else 3.
Fixpoint runs (s : pystr) : list (nat * pystr) :=
  match s with
  | [] => []
  | c :: t =>
      match runs t with
      | (k, w) :: ws => if (k =? char_class c)%nat then (k, c :: w) :: ws
                        else (char_class c, [c]) :: (k, w) :: ws
      | [] => [(char_class c, [c])]
      end
  end.
Definition vparse (s : pystr) : list vtok :=
  concat (map (fun kw => match fst kw, int_of_str (snd kw) with
                         | 2, _ => []
                         | 0, Ok n => [VInt n]
                         | _, _ => [VStr (snd kw)]
                         end) (runs s)).
Fixpoint str_ltb (s t : pystr) : bool :=
  match s, t with
  | _, [] => false
  | [], _ :: _ => true
  | a :: s', b :: t' => if (a =? b)%Z then str_ltb s' t' else (a <? b)%Z
  end.
Definition vtok_eqb (a b : vtok) : bool :=
  match a, b with
  | VInt x, VInt y => (x =? y)%Z
  | VStr s, VStr t => str_eqb s t
  | _, _ => false
  end.
(** [LooseVersion(a) < LooseVersion(b)]: lists of ints and strings; comparing
    an int with a string raises TypeError *)
Fixpoint vlt (a b : list vtok) : res bool :=
  match a, b with
  | _, [] => Ok false
  | [], _ :: _ => Ok true
  | x :: a', y :: b' =>
      if vtok_eqb x y then vlt a' b'
      else match x, y with
           | VInt x, VInt y => Ok (x <? y)%Z
           | VStr s, VStr t => Ok (str_ltb s t)
           | _, _ => Err TypeError
           end
  end.

(** ... of two version strings: LooseVersion("") has no [version] attribute *)
Definition version_lt (a b : pystr) : res bool :=
  match a, b with
  | [], _ | _, [] => Err AttributeError
  | _, _ => vlt (vparse a) (vparse b)
  end.

(** utils.py:44-65 [check_version]; [v] is the recorded version, None when
    reading it raises.  The result tells whether a warning was issued. *)
Definition check_version (v min_version : option pystr) : res bool :=
  match v with
  | None => Ok true
  | Some v =>
      low <- (match min_version with
              | None => Ok false
              | Some m => version_lt v m
              end) ;;
      if low : bool then Err OtherException else version_lt v (lit "0.20")
  end.

Section Convert.
  Context {A : arith} {L V : Type}.

  Inductive linear_class := LogisticRegression | RidgeClassifier | SGDClassifier | Perceptron
    | PassiveAggressiveClassifier | LinearSVC.
  Inductive tree_class := DecisionTreeClassifier | ExtraTreeClassifier.
  Inductive reg_class := DecisionTreeRegressor | ExtraTreeRegressor.
  Inductive bag_class := RandomForestClassifier | ExtraTreesClassifier | BaggingClassifier.

  (** The [init_] attribute of a gradient boosting classifier. *)
  Inductive gb_init_src (S : Type) := NoInit | InitEst (s : S) | InitStr (s : pystr).
  Arguments NoInit {S}.
  Arguments InitEst {S} s.
  Arguments InitStr {S} s.

  (** Fitted scikit-learn / xgboost objects, as the constructors read them.
      [v] is the recorded scikit-learn version.  Arrays are given as the lists
      [tolist()] makes of them.  [callables]: one of the text parameters is a
      callable or a set.  [SkOther c]: any other object, of class [c]. *)
  Inductive sk :=
  | SkTree (k : tree_class) (v : option pystr) (t : tree A L)
  | SkReg (k : reg_class) (v : option pystr) (t : tree A L)
  | SkBagging (k : bag_class) (v : option pystr) (members : list sk)
              (feats : option (list (list Z))) (classes : list L)
  | SkGb (v : option pystr) (trees : list (list (option pystr * tree A L)))
         (init : gb_init_src sk) (ls : pystr) (lr : A) (nfeat : Z) (classes : list L)
  | SkXgb (s : xgb_src A L)
  | SkLinear (k : linear_class) (v : option pystr) (coef : list (list A)) (classes : list L)
             (ic : option (icept A)) (multi solver ls : option pystr)
  | SkNb (v : option pystr) (m : nb A L)
  | SkDummy (v : option pystr) (ustrategy : option pystr) (strategy : pystr) (prior : list A)
  | SkNormalizer (v : option pystr) (norm : pystr)
  | SkStd (v : option pystr) (s : std_scaler A)
  | SkMinMax (v : option pystr) (s : minmax A)
  | SkMaxAbs (v : option pystr) (scale : option (list A))
  | SkEncoder (onehot : bool) (v : option pystr) (dt : dtype) (cats : list (list V))
              (sparse : option bool) (drop : bool) (unknown : option pystr)
  | SkIndicator (v : option pystr) (t : indicator A)
  | SkImputer (v : option pystr) (stats : list A) (strategy : pystr) (missing : A)
              (add_ind : bool) (ind : option (option pystr * indicator A))
  | SkDictVec (v : option pystr) (d : dictvec)
  | SkCount (v : option pystr) (callables : bool) (c : countvec)
  | SkTfidf (v : option pystr) (idf : option (list A)) (t : tfidf A)
  | SkTfidfVec (v : option pystr) (callables : bool) (c : countvec)
               (tv : option pystr) (idf : option (list A)) (t : tfidf A)
  | SkHashVec (v : option pystr) (callables : bool) (h : hashvec)
  | SkPipeline (v : option pystr) (steps : list (pystr * sk))
  | SkUnion (v : option pystr) (members : list (pystr * sk)) (weights : option (dict pystr A))
  | SkOther (cls : pystr).

  (** [est.__class__.__name__] *)
  Definition class_name (s : sk) : pystr :=
    match s with
    | SkTree DecisionTreeClassifier _ _ => lit "DecisionTreeClassifier"
    | SkTree ExtraTreeClassifier _ _ => lit "ExtraTreeClassifier"
    | SkReg DecisionTreeRegressor _ _ => lit "DecisionTreeRegressor"
    | SkReg ExtraTreeRegressor _ _ => lit "ExtraTreeRegressor"
    | SkBagging RandomForestClassifier _ _ _ _ => lit "RandomForestClassifier"
    | SkBagging ExtraTreesClassifier _ _ _ _ => lit "ExtraTreesClassifier"
    | SkBagging BaggingClassifier _ _ _ _ => lit "BaggingClassifier"
    | SkGb _ _ _ _ _ _ _ => lit "GradientBoostingClassifier"
    | SkXgb _ => lit "XGBClassifier"
    | SkLinear LogisticRegression _ _ _ _ _ _ _ => lit "LogisticRegression"
    | SkLinear RidgeClassifier _ _ _ _ _ _ _ => lit "RidgeClassifier"
    | SkLinear SGDClassifier _ _ _ _ _ _ _ => lit "SGDClassifier"
    | SkLinear Perceptron _ _ _ _ _ _ _ => lit "Perceptron"
    | SkLinear PassiveAggressiveClassifier _ _ _ _ _ _ _ => lit "PassiveAggressiveClassifier"
    | SkLinear LinearSVC _ _ _ _ _ _ _ => lit "LinearSVC"
    | SkNb _ (Gaussian _) => lit "GaussianNB"
    | SkNb _ (Multinomial _) => lit "MultinomialNB"
    | SkNb _ (Complement _) => lit "ComplementNB"
    | SkDummy _ _ _ _ => lit "DummyClassifier"
    | SkNormalizer _ _ => lit "Normalizer"
    | SkStd _ _ => lit "StandardScaler"
    | SkMinMax _ _ => lit "MinMaxScaler"
    | SkMaxAbs _ _ => lit "MaxAbsScaler"
    | SkEncoder true _ _ _ _ _ _ => lit "OneHotEncoder"
    | SkEncoder false _ _ _ _ _ _ => lit "OrdinalEncoder"
    | SkIndicator _ _ => lit "MissingIndicator"
    | SkImputer _ _ _ _ _ _ => lit "SimpleImputer"
    | SkDictVec _ _ => lit "DictVectorizer"
    | SkCount _ _ _ => lit "CountVectorizer"
    | SkTfidf _ _ _ => lit "TfidfTransformer"
    | SkTfidfVec _ _ _ _ _ _ => lit "TfidfVectorizer"
    | SkHashVec _ _ _ => lit "HashingVectorizer"
    | SkPipeline _ _ => lit "Pipeline"
    | SkUnion _ _ _ => lit "FeatureUnion"
    | SkOther c => c
    end.

  (** LogisticRegressionPure; SGDClassifierPure and its subclasses
      (_perceptron.py:9, _passive_aggressive.py:9); the others have no
      predict_proba (_ridge.py:9, svm/_classes.py:9) *)
  Definition linear_kind (k : linear_class) : lkind :=
    match k with
    | LogisticRegression => KLogistic
    | SGDClassifier | Perceptron | PassiveAggressiveClassifier => KSgd
    | RidgeClassifier | LinearSVC => KPlain
    end.

  (** _gb.py:41-50 and _gb_losses.py:25-30, 58-64, 92-98 *)
  Definition gb_loss_of (ls : pystr) (n_classes : nat) : res loss :=
    if str_eqb ls (lit "deviance") then
      if (2 <? n_classes)%nat then Ok (LMulti n_classes)
      else guard (n_classes =? 2)%nat ValueError ;; Ok LBinary
    else if str_eqb ls (lit "exponential") then
      guard (n_classes =? 2)%nat ValueError ;; Ok LExponential
    else Err ValueError.

  (** text.py:411-419: [estimator.idf_] raises AttributeError when the
      estimator was fitted with use_idf=False *)
  Definition tfidf_convert (v : option pystr) (idf : option (list A)) (t : tfidf A) : res (tfidf A) :=
    check_version v None ;;
    match idf with
    | None => Err AttributeError
    | Some l =>
        Ok {| tf_norm := tf_norm t; tf_use_idf := tf_use_idf t; tf_sublinear := tf_sublinear t;
              tf_idf := l; tf_expected := Z.of_nat (List.length l) |}
    end.

  (** A list of constructor results, in order: the first exception wins. *)
  Definition seqM {T} (l : list (res T)) : res (list T) := mapM (fun r => r) l.

  (** Calling the class found by [dispatch] on the object (all constructors;
      _bagging.py:22-33, _gb.py:26-51, xgboost/_classes.py:25-44,
      tree/_classes.py:41-55, linear_model/_base.py:14-28, naive_bayes.py:57-63,
      96-101, 124-129, dummy.py:20-31, _data.py:97-101, 118-130, 163-174,
      198-209, _encoders.py:23-33, impute/_base.py:26-37, 85-101,
      _dict_vectorizer.py:18-25, text.py:333-349, 392-395, 411-419, 454-472,
      pipeline.py:75-81, 162-176).  check_types, which ends every constructor,
      is modelled by [callables] (and in Model/Objects.v); the arrays and scalars
      read from fitted estimators are assumed to pass it.  An object of an
      unknown class named like a supported one lacks the attributes read. *)
  Fixpoint convert (s : sk) : res (est A L V) :=
    dispatch (class_name s) ;;
    match s with
    | SkTree _ v t => check_version v None ;; Ok (ETree t)
    | SkReg _ v t => check_version v None ;; Ok (EReg t)
    | SkBagging _ v members feats classes =>
        check_version v None ;;
        ms <- seqM (map convert members) ;;
        Ok (EBagging ms feats classes)
    | SkGb v trees init ls lr nfeat classes =>
        check_version v (Some (lit "0.21.0")) ;;
        ts <- mapM (mapM (fun vt => dispatch (lit "DecisionTreeRegressor") ;;
                                    check_version (fst vt) None ;; Ok (snd vt))) trees ;;
        i <- (match init with
              | NoInit => Ok None
              | InitEst s => e <- convert s ;; Ok (Some e)
              | InitStr _ => dispatch (lit "str") ;; Err AttributeError
              end) ;;
        l <- gb_loss_of ls (List.length classes) ;;
        Ok (EGb ts i lr nfeat l classes)
    | SkXgb s => g <- xgb_convert s ;; Ok (EXgb g)
    | SkLinear k v coef classes ic multi solver ls =>
        check_version v None ;;
        Ok (ELinear (linear_kind k) (linear_convert coef classes ic multi solver ls))
    | SkNb v m => check_version v None ;; Ok (ENb m)
    | SkDummy v us s prior =>
        check_version v None ;; d <- dummy_convert us s prior ;; Ok (EDummy d)
    | SkNormalizer v norm => check_version v None ;; Ok (ENormalizer norm)
    | SkStd v s => check_version v None ;; Ok (EStd s)
    | SkMinMax v s => check_version v None ;; Ok (EMinMax s)
    | SkMaxAbs v s => check_version v None ;; Ok (EMaxAbs s)
    | SkEncoder onehot v dt cats sparse drop unknown =>
        check_version v None ;;
        e <- encoder_convert dt cats sparse drop unknown ;;
        Ok (if onehot then EOneHot e else EOrdinal e)
    | SkIndicator v t => check_version v None ;; Ok (EIndicator t)
    | SkImputer v stats strategy missing add_ind ind =>
        check_version v None ;;
        i <- (match ind with
              | None => Ok None
              | Some (vi, t) => check_version vi None ;; Ok (Some t)
              end) ;;
        Ok (EImputer (imputer_convert stats strategy missing add_ind i))
    | SkDictVec v d => check_version v None ;; Ok (EDictVec d)
    | SkCount v bad c => check_version v None ;; guard (negb bad) ValueError ;; Ok (ECount c)
    | SkTfidf v idf t => t' <- tfidf_convert v idf t ;; Ok (ETfidf t')
    | SkTfidfVec v bad c tv idf t =>
        check_version v None ;;
        dispatch (lit "TfidfTransformer") ;;
        t' <- tfidf_convert tv idf t ;;
        guard (negb bad) ValueError ;;
        Ok (ETfidfVec c t')
    | SkHashVec v bad h => check_version v None ;; guard (negb bad) ValueError ;; Ok (EHashVec h)
    | SkPipeline v steps =>
        check_version v None ;;
        es <- seqM (map (fun ns => e <- convert (snd ns) ;; Ok (fst ns, e)) steps) ;;
        Ok (EPipeline es)
    | SkUnion v members weights =>
        check_version v None ;;
        es <- seqM (map (fun ns => e <- convert (snd ns) ;; Ok (fst ns, e)) members) ;;
        Ok (EUnion es weights)
    | SkOther _ => Err AttributeError
    end.

  (** map.py:48-58 [convert_estimator(est, min_version)]: the second argument
      is not used *)
  Definition convert_estimator (s : sk) (min_version : option pystr) : res (est A L V) := convert s.
End Convert.
Arguments sk A L V : clear implicits.
Arguments NoInit {S}.
Arguments InitEst {S} s.
Arguments InitStr {S} s.
