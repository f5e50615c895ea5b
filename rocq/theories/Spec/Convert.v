(** Vocabulary for conversion. *)
From Coq Require Import String.
From Verif Require Import Model.Py Model.Arith Model.Xgb Model.NaiveBayes Model.Est Model.Convert Model.Objects Spec.Xgb.

(** The scikit-learn and xgboost classes the library converts. *)
Definition supported : list pystr :=
  map lit ["LogisticRegression"; "RidgeClassifier"; "SGDClassifier"; "Perceptron";
    "PassiveAggressiveClassifier"; "LinearSVC"; "DecisionTreeClassifier";
    "DecisionTreeRegressor"; "ExtraTreeClassifier"; "ExtraTreeRegressor";
    "RandomForestClassifier"; "BaggingClassifier"; "GradientBoostingClassifier";
    "XGBClassifier"; "ExtraTreesClassifier"; "GaussianNB"; "MultinomialNB";
    "ComplementNB"; "SimpleImputer"; "MissingIndicator"; "DummyClassifier"; "Pipeline";
    "FeatureUnion"; "OneHotEncoder"; "OrdinalEncoder"; "StandardScaler"; "MinMaxScaler";
    "MaxAbsScaler"; "Normalizer"; "DictVectorizer"; "TfidfVectorizer"; "CountVectorizer";
    "TfidfTransformer"; "HashingVectorizer"]%string.

(** [v] is a release number: [ns] spelled out and separated by dots. *)
Inductive release : pystr -> list nat -> Prop :=
| release_one : forall w n, numeral w n -> release w [n]
| release_more : forall w n v ns, numeral w n -> release v ns -> release (w ++ 46%Z :: v) (n :: ns).

(** [v] is a pre-release of [ns]: ns, then a letter (0.22rc1) or a dot and a
    letter (0.22.dev0), then anything. *)
Definition prerelease (v : pystr) (ns : list nat) : Prop :=
  exists v0 c t, release v0 ns /\ (97 <= c <= 122)%Z /\ (v = v0 ++ c :: t \/ v = v0 ++ 46%Z :: c :: t).

(** Numerical order of release numbers, e.g. 0.9 < 0.20 < 0.20.1. *)
Inductive earlier : list nat -> list nat -> Prop :=
| earlier_shorter : forall n ns, earlier [] (n :: ns)
| earlier_here : forall m n ms ns, m < n -> earlier (m :: ms) (n :: ns)
| earlier_later : forall n ms ns, earlier ms ns -> earlier (n :: ms) (n :: ns).

Section Parts.
  Context {A : arith} {L V : Type}.

  (** [p] is [s], or occurs inside it at any depth. *)
  Inductive skpart : sk A L V -> sk A L V -> Prop :=
  | skpart_self : forall s, skpart s s
  | skpart_bagging : forall k v ms fs cl s p, In s ms -> skpart s p -> skpart (SkBagging k v ms fs cl) p
  | skpart_gb : forall v ts ls lr nf cl s p, skpart s p -> skpart (SkGb v ts (InitEst s) ls lr nf cl) p
  | skpart_pipeline : forall v steps nm s p, In (nm, s) steps -> skpart s p -> skpart (SkPipeline v steps) p
  | skpart_union : forall v ms w nm s p, In (nm, s) ms -> skpart s p -> skpart (SkUnion v ms w) p.

  (** The classes whose conversion gives an object of the kind of [e]. *)
  Definition family (e : est A L V) : list pystr :=
    map lit (match e with
    | ETree _ => ["DecisionTreeClassifier"; "ExtraTreeClassifier"]
    | EReg _ => ["DecisionTreeRegressor"; "ExtraTreeRegressor"]
    | EBagging _ _ _ => ["RandomForestClassifier"; "ExtraTreesClassifier"; "BaggingClassifier"]
    | EGb _ _ _ _ _ _ => ["GradientBoostingClassifier"]
    | EXgb _ => ["XGBClassifier"]
    | ELinear KLogistic _ => ["LogisticRegression"]
    | ELinear KSgd _ => ["SGDClassifier"; "Perceptron"; "PassiveAggressiveClassifier"]
    | ELinear KPlain _ => ["RidgeClassifier"; "LinearSVC"]
    | ENb (Gaussian _) => ["GaussianNB"]
    | ENb (Multinomial _) => ["MultinomialNB"]
    | ENb (Complement _) => ["ComplementNB"]
    | EDummy _ => ["DummyClassifier"]
    | ENormalizer _ => ["Normalizer"]
    | EStd _ => ["StandardScaler"]
    | EMinMax _ => ["MinMaxScaler"]
    | EMaxAbs _ => ["MaxAbsScaler"]
    | EOneHot _ => ["OneHotEncoder"]
    | EOrdinal _ => ["OrdinalEncoder"]
    | EIndicator _ => ["MissingIndicator"]
    | EImputer _ => ["SimpleImputer"]
    | EDictVec _ => ["DictVectorizer"]
    | ECount _ => ["CountVectorizer"]
    | ETfidf _ => ["TfidfTransformer"]
    | ETfidfVec _ _ => ["TfidfVectorizer"]
    | EHashVec _ => ["HashingVectorizer"]
    | EPipeline _ => ["Pipeline"]
    | EUnion _ _ => ["FeatureUnion"]
    end)%string.

  (** The version check with minimum [m] lets version [v] through, with or
      without a warning. *)
  Definition accepted (v m : option pystr) : Prop := exists warned, check_version v m = Ok warned.

  (** The versions recorded in an object and in the scikit-learn objects it
      is made of, other than those that are themselves parts. *)
  Definition versions_accepted (s : sk A L V) : Prop :=
    match s with
    | SkGb v trees _ _ _ _ _ =>
        accepted v (Some (lit "0.21.0")) /\
        forall row vt, In row trees -> In vt row -> accepted (fst vt) None
    | SkImputer v _ _ _ _ ind => accepted v None /\ forall vi t, ind = Some (vi, t) -> accepted vi None
    | SkTfidfVec v _ _ tv _ _ => accepted v None /\ accepted tv None
    | SkTree _ v _ | SkReg _ v _ | SkBagging _ v _ _ _ | SkLinear _ v _ _ _ _ _ _ | SkNb v _
    | SkDummy v _ _ _ | SkNormalizer v _ | SkStd v _ | SkMinMax v _ | SkMaxAbs v _
    | SkEncoder _ v _ _ _ _ _ | SkIndicator v _ | SkDictVec v _ | SkCount v _ _ | SkTfidf v _ _
    | SkHashVec v _ _ | SkPipeline v _ | SkUnion v _ _ => accepted v None
    | SkXgb _ | SkOther _ => True
    end.

  (** A configuration the converted classes implement. *)
  Definition implemented (s : sk A L V) : Prop :=
    match s with
    | SkGb _ _ init ls _ _ classes =>
        (forall w, init <> InitStr w) /\
        ((ls = lit "deviance" /\ 2 <= List.length classes) \/
         (ls = lit "exponential" /\ List.length classes = 2))
    | SkXgb x => (xs_objective x = lit "binary:logistic" \/ xs_objective x = lit "multi:softprob") /\
                 xs_booster x = lit "gbtree" /\
                 exists df, xs_df x = Some df /\
                   forall i rows, (0 <= i < Z.max 0 (xs_nest x) * (if Z.eq_dec (xs_nclasses x) 2 then 1 else Z.max 0 (xs_nclasses x)))%Z ->
                     rows_of i df rows -> readable (dump_of rows)
    | SkDummy _ us s _ => us = Some (lit "prior") \/ (us = None /\ s = lit "prior")
    | SkEncoder _ _ _ _ _ drop _ => drop = false
    | SkCount _ callables _ | SkHashVec _ callables _ => callables = false
    | SkTfidf _ idf _ => idf <> None
    | SkTfidfVec _ callables _ _ idf _ => callables = false /\ idf <> None
    | SkOther _ => False
    | _ => True
    end.
End Parts.

(** What [check_types] follows: [refers h a b], the object at [a] refers to
    the one at [b] as an element, key, value or attribute. *)
Inductive refers (h : heap) : addr -> addr -> Prop :=
| refers_elem : forall a e elems at_ b, nth_error h a = Some (OSeq e elems at_) -> In b elems -> refers h a b
| refers_key : forall a e es at_ k v, nth_error h a = Some (ODict e es at_) -> In (k, v) es -> refers h a k
| refers_value : forall a e es at_ k v, nth_error h a = Some (ODict e es at_) -> In (k, v) es -> refers h a v
| refers_attr : forall a at_ nm b, nth_error h a = Some (OPure at_) -> In (nm, b) at_ -> refers h a b.

(** [b] is reached from [a] by following [n] references. *)
Inductive reaches (h : heap) : nat -> addr -> addr -> Prop :=
| reaches_0 : forall a, reaches h 0 a a
| reaches_S : forall n a b c, refers h a b -> reaches h n b c -> reaches h (S n) a c.

(** A list, tuple, dict, int, float, str, bool, type, pure_sklearn object or
    None, or an instance of a subclass of these. *)
Definition pure_kind (h : heap) (a : addr) : Prop :=
  exists o, nth_error h a = Some o /\ o <> OOther.
