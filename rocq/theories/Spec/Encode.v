(** Specification vocabulary for the encoders. *)
From Verif Require Import Model.Py Model.Arith Spec.Matrix.

(** [v] is category number [k] of column [j]. *)
Definition has_code {V} (cats : list (list V)) (j : nat) (v : V) (k : nat) : Prop :=
  exists c, nth_error cats j = Some c /\ nth_error c k = Some v.
(** Some cell of [M] is not among the categories of its column. *)
Definition unknown_cell {V} (cats : list (list V)) (M : list (list V)) : Prop :=
  exists i j v, cell M i j = Some v /\ forall k, ~ has_code cats j v k.
(** First output column of the block of column [j]: the total number of
    categories of the columns before it. *)
Definition block {V} (cats : list (list V)) (j : nat) : nat :=
  list_sum (map (@length V) (firstn j cats)).
(** The one-hot encoding of a row: cell [p] is 1 when some column [j] has the
    value with code [k] and [p = block j + k], and 0 otherwise. *)
Definition onehot_row {A : arith} {V} (cats : list (list V)) (row : list V) (out : list A) : Prop :=
  length out = list_sum (map (@length V) cats) /\
  forall p x, nth_error out p = Some x ->
    ((exists j v k, nth_error row j = Some v /\ has_code cats j v k /\ p = block cats j + k) -> x = one) /\
    ((forall j v k, nth_error row j = Some v -> has_code cats j v k -> p <> block cats j + k) -> x = zero).
