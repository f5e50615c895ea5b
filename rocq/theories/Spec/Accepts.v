(** Which inputs a converted estimator accepts: input forms, and rules giving
    for each estimator the forms its methods take and return. *)
From Coq Require Import String.
From Verif Require Import Model.Py Model.Arith Model.Utils Model.Hash Model.DictVec Model.Text Model.Tree
  Model.Ensemble Model.Xgb Model.Linear Model.NaiveBayes Model.Dummy Model.Preprocessing Model.Encoders
  Model.Impute Model.Pipeline Model.Est.
From Verif Require Import Spec.Matrix Spec.Trees Spec.Linear Spec.Encode Spec.Impute Spec.Pipeline.

(** A string of Unicode scalar values (no lone surrogates). *)
Definition text (s : pystr) : Prop :=
  Forall (fun c => (0 <= c < 55296 \/ 57343 < c < 1114112)%Z) s.

Section Forms.
  Context {A : arith} {V : Type}.

  (** [w] cells per row as a list of lists or a sparse_list; documents;
      mappings; [w] categories per row; categories all of them fitted ones. *)
  Inductive form :=
  | FRows (w : nat)
  | FSparse (w : nat)
  | FTexts
  | FMaps
  | FCats (w : nat)
  | FKnown (cats : list (list V)).

  (** A dict row for [w] columns. *)
  Definition row_of (w : nat) (d : dict Z A) : Prop :=
    NoDup (map fst d) /\ forall k, In k (map fst d) -> (0 <= k < Z.of_nat w)%Z.

  (** [X] has the form [s] and [n] rows, documents or mappings. *)
  Definition of_form (s : form) (n : nat) (X : data A V) : Prop :=
    match s with
    | FRows w => exists M, X = DNum (ll M) /\ rect M n w
    | FSparse w => exists rows dt, X = DNum (Sp rows (Some (Z.of_nat w)) dt) /\ List.length rows = n /\ Forall (row_of w) rows
    | FTexts => exists l, X = DDocs (RawDocs (map DocStr l)) /\ List.length l = n /\ Forall text l
    | FMaps => exists l, X = DMaps (Maps l) /\ List.length l = n
    | FCats w => exists M, X = DCats (ll M) /\ rect M n w
    | FKnown cats => exists M, X = DCats (ll M) /\ rect M n (List.length cats) /\ ~ unknown_cell cats M
    end.
End Forms.
Arguments form V : clear implicits.

(** What the Unicode functions must do on text: keep it text, and the regular
    expression [p] must be a valid one. *)
Definition good_lib (U : textlib) : Prop :=
  (forall s, text s -> text (x_lower U s)) /\ (forall s, text s -> text (x_nfkd U s)).
Definition good_pattern (U : textlib) (p : pystr) : Prop :=
  forall s, text s -> exists ws, x_findall U p s = Ok ws /\ Forall text ws.

(** Text parameters a vectorizer can be fitted with. *)
Definition good_conf (U : textlib) (c : textconf) : Prop :=
  (tc_strip c = None \/ tc_strip c = Some (lit "ascii") \/ tc_strip c = Some (lit "unicode")) /\
  (tc_analyzer c = lit "char" \/ tc_analyzer c = lit "char_wb" \/
   (tc_analyzer c = lit "word" /\ good_pattern U (tc_pattern c) /\ match tc_stop c with SWStr _ => False | _ => True end)).
(** Columns numbered below the size of the vocabulary. *)
Definition good_vocab (v : dict pystr Z) : Prop :=
  forall t j, In (t, j) v -> (0 <= j < Z.of_nat (List.length v))%Z.

Definition norm_names : list pystr := [lit "l1"; lit "l2"; lit "max"].

Section Rules.
  Context {A : arith} {L V : Type} (U : textlib).
  Notation est := (est A L V).
  Notation form := (form V).

  (** [l] can be divided by. *)
  Definition nonzero (l : list A) : Prop := Forall (fun x => eqb x zero = false) l.

  (** A TfidfTransformer for [w] columns. *)
  Definition good_tfidf (t : tfidf A) (w : nat) : Prop :=
    tf_sublinear t = false /\ (tf_use_idf t = true -> tf_expected t = Z.of_nat w /\ List.length (tf_idf t) = w) /\
    match tf_norm t with None => True | Some nm => In nm norm_names end.

  (** The number of columns a MissingIndicator gives for [w] columns. *)
  Inductive flags : indicator A -> nat -> nat -> Prop :=
  | flags_all : forall t w, mi_features t = lit "all" -> mi_nfeat t = Z.of_nat w -> flags t w w
  | flags_only : forall t w fs, mi_features t = lit "missing-only" -> mi_nfeat t = Z.of_nat w -> mi_error t = false ->
      columns w fs -> mi_fitted t = map Z.of_nat fs -> flags t w (List.length fs).

  (** [maps_to e s s']: the transformer [e] is fitted for inputs of the form
      [s] and gives results of the form [s']. *)
  Inductive maps_to : est -> form -> form -> Prop :=
  | m_normalizer : forall nm w, In nm norm_names -> nm = lit "max" -> 1 <= w -> maps_to (ENormalizer nm) (FRows w) (FRows w)
  | m_normalizer12 : forall nm w, In nm norm_names -> nm <> lit "max" -> maps_to (ENormalizer nm) (FRows w) (FRows w)
  | m_normalizer_sparse : forall nm w, In nm norm_names -> maps_to (ENormalizer nm) (FSparse w) (FSparse w)
  | m_std : forall s w,
      (ss_mean_on s = true -> exists mean, ss_mean s = Some mean /\ List.length mean = w) ->
      (ss_std_on s = true -> exists sc, ss_scale s = Some sc /\ List.length sc = w /\ nonzero sc) ->
      maps_to (EStd s) (FRows w) (FRows w)
  | m_std_sparse : forall s w, ss_mean_on s = false ->
      match ss_scale s with None => True | Some sc => List.length sc = w /\ nonzero sc end ->
      maps_to (EStd s) (FSparse w) (FSparse w)
  | m_minmax : forall sc mn w, List.length sc = w -> List.length mn = w ->
      maps_to (EMinMax {| mm_scale := Some sc; mm_min := Some mn |}) (FRows w) (FRows w)
  | m_maxabs : forall sc w, List.length sc = w -> nonzero sc -> maps_to (EMaxAbs (Some sc)) (FRows w) (FRows w)
  | m_maxabs_sparse : forall sc w, List.length sc = w -> nonzero sc -> maps_to (EMaxAbs (Some sc)) (FSparse w) (FSparse w)
  | m_onehot : forall e u sp s, en_unknown e = Some u -> en_sparse e = Some sp -> Forall (@NoDup V) (en_cats e) -> en_cats e <> [] ->
      (s = FKnown (en_cats e) \/
       ((s = FCats (List.length (en_cats e)) \/ s = FRows (List.length (en_cats e))) /\ u <> lit "error" /\ Forall (fun c => c <> []) (en_cats e))) ->
      maps_to (EOneHot e) s (let w := list_sum (map (@List.length V) (en_cats e)) in if sp then FSparse w else FRows w)
  | m_ordinal : forall e, Forall (@NoDup V) (en_cats e) -> en_cats e <> [] -> en_dtype e <> DInt ->
      maps_to (EOrdinal e) (FKnown (en_cats e)) (FRows (List.length (en_cats e)))
  | m_indicator : forall t w k, flags t w k -> maps_to (EIndicator t) (FRows w) (FRows k)
  | m_imputer : forall s w ks, si_add s = false -> List.length (si_stats s) = w -> 1 <= w ->
      kept (str_eqb (si_strategy s) (lit "constant")) (si_stats s) ks -> maps_to (EImputer s) (FRows w) (FRows (List.length ks))
  | m_imputer_add : forall s w ks t k, si_add s = true -> si_indicator s = Some t -> flags t w k ->
      List.length (si_stats s) = w -> 1 <= w ->
      kept (str_eqb (si_strategy s) (lit "constant")) (si_stats s) ks ->
      maps_to (EImputer s) (FRows w) (FRows (List.length ks + k))
  | m_dictvec : forall d, dv_dtype d <> DInt -> good_vocab (dv_vocab d) ->
      maps_to (EDictVec d) FMaps (if dv_sparse d then FSparse (List.length (dv_vocab d)) else FRows (List.length (dv_vocab d)))
  | m_count : forall c, cv_binary c = false -> good_conf U (cv_conf c) -> good_vocab (cv_vocab c) ->
      maps_to (ECount c) FTexts (FSparse (List.length (cv_vocab c)))
  | m_tfidf : forall t w, good_tfidf t w -> maps_to (ETfidf t) (FSparse w) (FSparse w)
  | m_tfidfvec : forall c t, cv_binary c = false -> good_conf U (cv_conf c) -> good_vocab (cv_vocab c) ->
      good_tfidf t (List.length (cv_vocab c)) -> maps_to (ETfidfVec c t) FTexts (FSparse (List.length (cv_vocab c)))
  | m_hashvec : forall h w, hv_binary h = false -> good_conf U (hv_conf h) -> hv_nfeat h = Z.of_nat w -> (1 <= Z.of_nat w < 2147483648)%Z ->
      match hv_norm h with None => True | Some nm => In nm norm_names end ->
      maps_to (EHashVec h) FTexts (FSparse w)
  | m_last : forall nm e s s', maps_to e s s' -> maps_to (EPipeline [(nm, e)]) s s'
  | m_step : forall nm e rest s s1 s2, maps_to e s s1 -> maps_to (EPipeline rest) s1 s2 -> maps_to (EPipeline ((nm, e) :: rest)) s s2
  | m_union : forall ms ws s out, joins ms ws s out -> ms <> [] ->
      Forall (fun o => fst o = false) out ->
      maps_to (EUnion ms ws) s (FRows (list_sum (map snd out)))
  | m_union_sparse : forall ms ws s out, joins ms ws s out ->
      Exists (fun o => fst o = true) out -> Forall (fun o => fst o = false -> 1 <= snd o) out ->
      maps_to (EUnion ms ws) s (FSparse (list_sum (map snd out)))
  (** [joins ms ws s out]: each member of the union maps [s] to rows, sparse
      (true) or not, of the given width; no weight on sparse ones. *)
  with joins : list (pystr * est) -> option (dict pystr A) -> form -> list (bool * nat) -> Prop :=
  | j_nil : forall ws s, joins [] ws s []
  | j_rows : forall nm e ms ws s w out, maps_to e s (FRows w) -> joins ms ws s out -> joins ((nm, e) :: ms) ws s ((false, w) :: out)
  | j_sparse : forall nm e ms ws s w out, maps_to e s (FSparse w) -> weight_of ws nm = None -> joins ms ws s out ->
      joins ((nm, e) :: ms) ws s ((true, w) :: out).

  (** A form of [w] numbers per row. *)
  Definition numeric (s : form) (w : nat) : Prop := s = FRows w \/ s = FSparse w.

  (** A fitted tree for [w] columns whose leaves satisfy [P]. *)
  Definition tree_for (P : list A -> Prop) (w : nat) (t : tree A L) : Prop :=
    exists sh, encodes t 0 sh /\ features_below w sh /\ all_leaves P sh.
  Definition regression_tree : nat -> tree A L -> Prop := tree_for (fun v => 1 <= List.length v).

  (** [rates e s k]: the classifier [e] is fitted for inputs of the form [s]
      and [k] classes, and has probabilities.  (No rule for GaussianNB,
      multinomial LogisticRegression and XGBClassifier with more than two
      classes, which can raise on large numbers: C24, C06.) *)
  Inductive rates : est -> form -> nat -> Prop :=
  | r_tree : forall t s w k, numeric s w -> tree_for (fun v => List.length v = k /\ eqb (psum v) zero = false) w t -> rates (ETree t) s k
  | r_forest : forall ms cl s w k, numeric s w -> ms <> [] -> (forall m, In m ms -> rates m s k) -> rates (EBagging ms None cl) s k
  | r_bagging : forall ms fss cl w k, ms <> [] -> List.length fss = List.length ms ->
      Forall (Forall (fun j => 0 <= j < Z.of_nat w)%Z) fss ->
      (forall i m fs, nth_error ms i = Some m -> nth_error fss i = Some fs -> rates m (FRows (List.length fs)) k) ->
      rates (EBagging ms (Some fss) cl) (FRows w) k
  | r_boosting : forall ts i lr cl w k, ts <> [] -> 1 <= k -> Forall (fun row => List.length row = k) ts ->
      Forall (Forall (regression_tree w)) ts -> rates i (FRows w) k ->
      rates (EGb ts (Some i) lr (Z.of_nat w) (LMulti k) cl) (FRows w) k
  | r_boosting2 : forall ts i lr ls cl w, ls = LBinary \/ ls = LExponential -> ts <> [] -> Forall (fun row => List.length row = 1) ts ->
      Forall (Forall (regression_tree w)) ts -> rates i (FRows w) 2 ->
      rates (EGb ts (Some i) lr (Z.of_nat w) ls cl) (FRows w) 2
  | r_xgb : forall g w, xg_objective g = lit "binary:logistic" ->
      Forall (fun r => match r with One t => regression_tree w t | Many _ => False end) (xg_estimators g) ->
      rates (EXgb g) (FRows w) 2
  | r_logistic : forall c s w K b, numeric s w -> fitted_linear c w K b -> ovr_setting c ->
      rates (ELinear KLogistic c) s (if K =? 1 then 2 else K)
  | r_sgd : forall c s w K b, numeric s w -> fitted_linear c w K b -> l_loss c = Some (lit "log") ->
      rates (ELinear KSgd c) s (if K =? 1 then 2 else K)
  | r_multinomial : forall d w k, rect (d_log_prob d) k w -> List.length (d_log_prior d) = k -> List.length (d_classes d) = k ->
      rates (ENb (Multinomial d)) (FRows w) k
  | r_complement : forall d w k, rect (d_log_prob d) k w -> List.length (d_log_prior d) = k -> List.length (d_classes d) = k ->
      rates (ENb (Complement d)) (FRows w) k
  | r_dummy : forall d s k, List.length (dm_prior d) = k -> rates (EDummy d) s k
  | r_last : forall nm e s k, rates e s k -> rates (EPipeline [(nm, e)]) s k
  | r_step : forall nm e rest s s1 k, maps_to e s s1 -> rates (EPipeline rest) s1 k -> rates (EPipeline ((nm, e) :: rest)) s k.

  (** [answers e s]: the classifier or regressor [e] is fitted for inputs of
      the form [s].  Those of [rates] with at least one class, and ... *)
  Inductive answers : est -> form -> Prop :=
  | a_linear : forall kd c s w K b, numeric s w -> fitted_linear c w K b ->
      List.length (l_classes c) = (if K =? 1 then 2 else K) -> answers (ELinear kd c) s
  | a_regressor : forall t s w, numeric s w -> regression_tree w t -> answers (EReg t) s
  | a_last : forall nm e s, answers e s -> answers (EPipeline [(nm, e)]) s
  | a_step : forall nm e rest s s1, maps_to e s s1 -> answers (EPipeline rest) s1 -> answers (EPipeline ((nm, e) :: rest)) s.
End Rules.
