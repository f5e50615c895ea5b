(** Vocabulary for C88: moving a row in the direction of the coefficients. *)
From Verif Require Import Model.Py Model.Arith.

(** From row [x] to row [y] no cell moves against the sign of its coefficient:
    under a coefficient >= 0 it does not fall, under one <= 0 it does not rise.
    (Under a coefficient 0 it may move either way.) *)
Definition towards {A : arith} (w x y : list A) : Prop :=
  length x = length w /\ length y = length w /\
  forall j v a b, nth_error w j = Some v -> nth_error x j = Some a -> nth_error y j = Some b ->
    (leb zero v = true /\ leb a b = true) \/ (leb v zero = true /\ leb b a = true).
