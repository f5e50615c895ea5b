(** Vocabulary for choosing, reordering and repeating the rows of a batch, and
    for the shape of a batch. *)
From Verif Require Import Model.Py Model.Arith Model.Utils Model.Hash Model.DictVec Model.Text
  Model.Pipeline.

Section Pick.
  Context {A : arith} {L V : Type}.

  (** [l'] holds the elements of [l] at the positions [idx], in that order. *)
  Definition taken {T} (idx : list nat) (l l' : list T) : Prop :=
    Forall2 (fun i x => nth_error l i = Some x) idx l'.

  (** [X'] holds the rows of [X] at the positions [idx], in that order.  A list
      of lists has rows of one width. *)
  Inductive picked (idx : list nat) : data A V -> data A V -> Prop :=
  | picked_lists : forall c (M M' : list (list A)),
      Forall (fun row => length row = c) M -> taken idx M M' -> picked idx (DNum (ll M)) (DNum (ll M'))
  | picked_sparse : forall size dt (R R' : list (dict Z A)),
      taken idx R R' -> picked idx (DNum (Sp R size dt)) (DNum (Sp R' size dt))
  | picked_docs : forall (D D' : list doc),
      taken idx D D' -> picked idx (DDocs (RawDocs D)) (DDocs (RawDocs D'))
  | picked_maps : forall (D D' : list (dict pystr (fval A))),
      taken idx D D' -> picked idx (DMaps (Maps D)) (DMaps (Maps D'))
  | picked_cats : forall c (M M' : list (list V)),
      Forall (fun row => length row = c) M -> taken idx M M' -> picked idx (DCats (ll M)) (DCats (ll M')).

  Inductive picked_preds (idx : list nat) : preds A L -> preds A L -> Prop :=
  | picked_labels : forall l l', taken idx l l' -> picked_preds idx (PLab l) (PLab l')
  | picked_indices : forall l l', taken idx l l' -> picked_preds idx (PIdx l) (PIdx l')
  | picked_numbers : forall l l', taken idx l l' -> picked_preds idx (PNum l) (PNum l').

  (** Two non-empty batches of the same shape: lists of lists of one and the
      same width, sparse rows of one size and type, documents, mappings, or
      categories of one width. *)
  Inductive alike : data A V -> data A V -> Prop :=
  | alike_lists : forall c (M M' : list (list A)), M <> [] -> M' <> [] ->
      Forall (fun row => length row = c) (M ++ M') -> alike (DNum (ll M)) (DNum (ll M'))
  | alike_sparse : forall size dt (R R' : list (dict Z A)), R <> [] -> R' <> [] ->
      alike (DNum (Sp R size dt)) (DNum (Sp R' size dt))
  | alike_docs : forall (D D' : list doc), D <> [] -> D' <> [] -> alike (DDocs (RawDocs D)) (DDocs (RawDocs D'))
  | alike_maps : forall (D D' : list (dict pystr (fval A))), D <> [] -> D' <> [] ->
      alike (DMaps (Maps D)) (DMaps (Maps D'))
  | alike_cats : forall c (M M' : list (list V)), M <> [] -> M' <> [] ->
      Forall (fun row => length row = c) (M ++ M') -> alike (DCats (ll M)) (DCats (ll M')).
  (** Predictions of one type. *)
  Definition alike_preds (p p' : preds A L) : Prop :=
    match p, p' with PLab _, PLab _ | PIdx _, PIdx _ | PNum _, PNum _ => True | _, _ => False end.
End Pick.
