(** Vocabulary for C82: the order of words and keys. *)
From Coq Require Import Permutation.
From Verif Require Import Model.Py Model.Arith Model.Utils.

(** Two sparse rows say the same about every column. *)
Definition same_entries {T} (r r' : dict Z T) : Prop := forall j, dlookup Z.eqb j r = dlookup Z.eqb j r'.
(** Two documents have the same features, each as often, in any order. *)
Definition reordered {D} (features : D -> res (list pystr)) (d d' : D) : Prop :=
  exists fs fs', features d = Ok fs /\ features d' = Ok fs' /\ Permutation fs fs'.
