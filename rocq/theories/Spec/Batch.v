(** Vocabulary for splitting a batch into smaller ones. *)
From Coq Require Import String.
From Verif Require Import Model.Py Model.Arith Model.Utils Model.Hash Model.DictVec Model.Text
  Model.Tree Model.NaiveBayes Model.Impute Model.Pipeline Model.Est.

Section Batch.
  Context {A : arith} {L V : Type}.

  (** [X] holds the rows of the first of the [parts], then those of the second,
      and so on; no part is empty.  A list of lists has rows of one width. *)
  Inductive joined : list (data A V) -> data A V -> Prop :=
  | joined_lists : forall c (Ms : list (list (list A))),
      Ms <> [] -> Forall (fun M => M <> [] /\ Forall (fun row => length row = c) M) Ms ->
      joined (map (fun M => DNum (ll M)) Ms) (DNum (ll (concat Ms)))
  | joined_sparse : forall size dt (Rs : list (list (dict Z A))),
      Rs <> [] -> Forall (fun R => R <> []) Rs ->
      joined (map (fun R => DNum (Sp R size dt)) Rs) (DNum (Sp (concat Rs) size dt))
  | joined_docs : forall (Ds : list (list doc)),
      Ds <> [] -> Forall (fun D => D <> []) Ds ->
      joined (map (fun D => DDocs (RawDocs D)) Ds) (DDocs (RawDocs (concat Ds)))
  | joined_maps : forall (Ds : list (list (dict pystr (fval A)))),
      Ds <> [] -> Forall (fun D => D <> []) Ds ->
      joined (map (fun D => DMaps (Maps D)) Ds) (DMaps (Maps (concat Ds)))
  | joined_cats : forall c (Ms : list (list (list V))),
      Ms <> [] -> Forall (fun M => M <> [] /\ Forall (fun row => length row = c) M) Ms ->
      joined (map (fun M => DCats (ll M)) Ms) (DCats (ll (concat Ms))).

  (** Plain lists of dicts, as the vectorizers with binary=True return them. *)
  Inductive joined_dicts : list (data A V) -> data A V -> Prop :=
  | joined_plain : forall (Rs : list (list (dict Z A))),
      Rs <> [] -> Forall (fun R => R <> []) Rs ->
      joined_dicts (map (fun R => DNum (Arr (map Di R))) Rs) (DNum (Arr (map Di (concat Rs)))).

  (** Predictions one after the other. *)
  Inductive appended : list (preds A L) -> preds A L -> Prop :=
  | appended_labels : forall ls, appended (map PLab ls) (PLab (concat ls))
  | appended_indices : forall ls, appended (map PIdx ls) (PIdx (concat ls))
  | appended_numbers : forall ls, appended (map PNum ls) (PNum (concat ls)).

  (** Every part [P] succeeds under [f]; [Qs] are the results. *)
  Definition each {R S} (f : R -> res S) (parts : list R) (Qs : list S) : Prop :=
    Forall2 (fun P Q => f P = Ok Q) parts Qs.

  (** The missing indicator does not look at the whole batch. *)
  Definition indicator_rowwise (t : indicator A) : Prop :=
    mi_error t = false \/ mi_features t <> lit "missing-only".

  (** What is asked of an estimator (and of all its parts): the leaves of a
      tree list as many classes, there is at least one class or member, the
      vectorizers have binary=False, and the indicator is row-wise. *)
  Definition rowwise_part (e : est A L V) : Prop :=
    match e with
    | ETree t => exists w, Forall (fun v => length v = w) (Tree.t_value t)
    | ENb (Gaussian g) => g_classes g <> []
    | EIndicator t => indicator_rowwise t
    | EImputer s => match si_indicator s with Some t => indicator_rowwise t | None => True end
    | ECount c | ETfidfVec c _ => cv_binary c = false
    | EHashVec h => hv_binary h = false
    | EUnion ms _ => ms <> []
    | _ => True
    end.
End Batch.
