(** One matrix given as a list of lists or as a sparse_list: the estimators that
    take both. *)
From Coq Require Import String.
From Verif Require Import Model.Py Model.Arith Model.Utils Model.Tree Model.Linear Model.Dummy Model.Preprocessing
  Model.Pipeline Model.Est.
From Verif Require Import Spec.Matrix Spec.Trees Spec.Linear Spec.Pipeline.

Section Storage.
  Context {A : arith}.

  (** [S] is a sparse_list of size [c] storing the r x c matrix [M], each row's
      columns in increasing order; zeros may be stored or not. *)
  Definition sparse_of (r c : nat) (S : arr A) (M : list (list A)) : Prop :=
    rect M r c /\ 1 <= r /\
    exists rows dt, S = Sp rows (Some (Z.of_nat c)) dt /\ Forall2 stores_sorted rows M.

  (** No cell is NaN. *)
  Definition nan_free (M : list (list A)) : Prop := Forall (Forall (fun x => isnan x = false)) M.

  Context {L V : Type}.
  Notation est := (est A L V).

  (** A divisor: neither zero nor NaN. *)
  Definition divisors (l : list A) : Prop := Forall (fun x => ~ is0 x /\ isnan x = false) l.

  (** [scales e c c']: a transformer fitted on [c] columns and giving [c'] that
      is documented to take both forms: Normalizer (l1, l2), StandardScaler
      without centring, MaxAbsScaler, and pipelines and unweighted unions of
      them.  (With norm="max" the forms differ on rows without a positive
      entry: C30.) *)
  Inductive scales : est -> nat -> nat -> Prop :=
  | s_normalizer : forall nm c, nm = lit "l1" \/ nm = lit "l2" -> scales (ENormalizer nm) c c
  | s_std : forall s sc c, ss_mean_on s = false -> ss_std_on s = true -> ss_scale s = Some sc -> List.length sc = c ->
      divisors sc -> scales (EStd s) c c
  | s_std_none : forall s c, ss_mean_on s = false -> ss_std_on s = false -> ss_scale s = None -> scales (EStd s) c c
  | s_maxabs : forall sc c, List.length sc = c -> divisors sc -> scales (EMaxAbs (Some sc)) c c
  | s_last : forall nm e c c', scales e c c' -> scales (EPipeline [(nm, e)]) c c'
  | s_step : forall nm e rest c c1 c2, scales e c c1 -> scales (EPipeline rest) c1 c2 -> scales (EPipeline ((nm, e) :: rest)) c c2
  | s_union : forall ms ws c cs, ms <> [] -> unions ms ws c cs -> scales (EUnion ms ws) c (list_sum cs)
  with unions : list (pystr * est) -> option (dict pystr A) -> nat -> list nat -> Prop :=
  | u_nil : forall ws c, unions [] ws c []
  | u_cons : forall nm e ms ws c c' cs, weight_of ws nm = None -> scales e c c' -> unions ms ws c cs ->
      unions ((nm, e) :: ms) ws c (c' :: cs).

  (** [models e c]: a classifier or regressor fitted on [c] columns that takes
      both forms: trees, forests, linear models with finite coefficients,
      DummyClassifier. *)
  Inductive models : est -> nat -> Prop :=
  | mo_tree : forall t sh c, encodes t 0 sh -> features_below c sh -> models (ETree t) c
  | mo_regressor : forall t sh c, encodes t 0 sh -> features_below c sh -> models (EReg t) c
  | mo_forest : forall ms cl c, (forall e, In e ms -> models e c) -> models (EBagging ms None cl) c
  | mo_linear : forall k l c K b, fitted_linear l c K b -> Forall (Forall finite) (l_coef l) -> models (ELinear k l) c
  | mo_dummy : forall d c, models (EDummy d) c.

  (** Whatever prediction methods [o] has give the same result, or the same
      exception, on [X] and [Y]. *)
  Definition same_answers (o : obj A L V) (X Y : data A V) : Prop :=
    (forall f, o_predict o = Some f -> fst (f X) = fst (f Y)) /\
    (forall f, o_proba o = Some f -> fst (f X) = fst (f Y)) /\
    (forall f, o_log_proba o = Some f -> fst (f X) = fst (f Y)).
End Storage.
