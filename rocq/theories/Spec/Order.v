(** What it means that a computation does not reverse the order of numbers. *)
From Verif Require Import Model.Py Model.Arith Spec.Matrix.

Section Spec.
  Context {A : arith}.

  (** In every column: where [M] has x <= y, [D] has u <= w in the same rows. *)
  Definition keeps_column_order (M D : list (list A)) : Prop :=
    forall i i' j x y u w, cell M i j = Some x -> cell M i' j = Some y -> leb x y = true ->
      cell D i j = Some u -> cell D i' j = Some w -> leb u w = true.

  (** The two-class probabilities [P] of samples with scores [s], next to the
      probabilities [Q] of samples with scores [t]: a sample with a larger
      score has no smaller probability of the second class and no larger
      probability of the first. *)
  Definition ranked (s t : list A) (P Q : list (list A)) : Prop :=
    forall i j x y, nth_error s i = Some x -> nth_error t j = Some y -> leb x y = true ->
      exists p0 p1 q0 q1, nth_error P i = Some [p0; p1] /\ nth_error Q j = Some [q0; q1] /\
        leb p1 q1 = true /\ leb q0 p0 = true.

  (** The class probabilities [p] of one sample are ordered as its scores [s]
      (NaN probabilities aside). *)
  Definition ordered_as (s p : list A) : Prop :=
    length p = length s /\
    forall j k x y u w, nth_error s j = Some x -> nth_error s k = Some y -> leb x y = true ->
      nth_error p j = Some u -> nth_error p k = Some w -> isnan u = false -> isnan w = false -> leb u w = true.

  (** No class has a larger probability than class [i]. *)
  Definition most_probable (p : list A) (i : nat) : Prop :=
    exists v, nth_error p i = Some v /\ forall j w, nth_error p j = Some w -> isnan w = false -> leb w v = true.
End Spec.
