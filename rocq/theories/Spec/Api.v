(** Vocabulary for the public methods of converted estimators. *)
From Coq Require Import String.
From Verif Require Import Model.Py Model.Arith Model.Utils Model.DictVec Model.Text Model.NaiveBayes Model.Linear
  Model.Preprocessing Model.Pipeline Model.Est Model.Convert Spec.Est.

Section Api.
  Context {A : arith} {L V : Type}.

  (** [e] is [z], or a pipeline whose last step ends in [z]. *)
  Inductive ends_in : est A L V -> est A L V -> Prop :=
  | ends_here : forall z, ends_in z z
  | ends_last : forall pre nm e z, ends_in e z -> ends_in (EPipeline (pre ++ [(nm, e)])) z.

  (** [y] is the logarithm of [x]: -inf at 0, NaN below 0. *)
  Definition log_of (x y : A) : Prop :=
    if eqb x zero then y = ninf else if ltb x zero then y = nanv else logv x = Ok y.
  (** [y] is the exponential of [x]: +inf if it overflows. *)
  Definition exp_of (x y : A) : Prop :=
    expv x = Ok y \/ (expv x = Err OverflowError /\ y = pinf).

  (** How many predictions a list holds. *)
  Definition n_preds (p : preds A L) : nat :=
    match p with PLab l => length l | PIdx l => length l | PNum l => length l end.

  (** A naive Bayes model has a class. *)
  Definition has_class (e : est A L V) : Prop :=
    match e with ENb (Gaussian g) => g_classes g <> [] | _ => True end.

  (** [o] has the method [m]. *)
  Definition offers (o : obj A L V) (m : method) : Prop :=
    match m with
    | Transform => o_transform o <> None
    | Predict => o_predict o <> None
    | PredictProba => o_proba o <> None
    | PredictLogProba => o_log_proba o <> None
    end.

  (** The estimators whose transform may return the very object it is given. *)
  Inductive passes_input : est A L V -> Prop :=
  | passes_std : forall s, ss_mean_on s = false -> passes_input (EStd s)
  | passes_tfidf : forall t, tf_norm t = None -> passes_input (ETfidf t)
  | passes_pipeline : forall steps, (forall nm e, In (nm, e) steps -> passes_input e) -> passes_input (EPipeline steps).
End Api.

(** The methods of each class (other than the pipelines, which have those of
    their last step). *)
Definition methods_table : list (list string * list method) :=
  [ (["DecisionTreeClassifier"; "ExtraTreeClassifier"; "RandomForestClassifier"; "ExtraTreesClassifier";
      "BaggingClassifier"; "GradientBoostingClassifier"; "LogisticRegression"; "GaussianNB"; "MultinomialNB";
      "ComplementNB"; "DummyClassifier"], [Predict; PredictProba; PredictLogProba]);
    (["XGBClassifier"], [Predict; PredictProba]);
    (["DecisionTreeRegressor"; "ExtraTreeRegressor"; "RidgeClassifier"; "LinearSVC"], [Predict]);
    (["Normalizer"; "StandardScaler"; "MinMaxScaler"; "MaxAbsScaler"; "OneHotEncoder"; "OrdinalEncoder";
      "MissingIndicator"; "SimpleImputer"; "DictVectorizer"; "CountVectorizer"; "TfidfTransformer";
      "TfidfVectorizer"; "HashingVectorizer"; "FeatureUnion"], [Transform]) ]%string.
Definition sgd_family : list string := ["SGDClassifier"; "Perceptron"; "PassiveAggressiveClassifier"]%string.
