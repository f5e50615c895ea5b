(** Vocabulary for ensembles: what each member is shown, and cell-wise means. *)
From Coq Require Import Reals.
From Verif Require Import Model.Py Model.Arith Model.Utils Spec.Matrix Spec.Reals.

(** [M'] consists of the columns [idx] of [M], in that order. *)
Definition columns {T} (idx : list nat) (M M' : list (list T)) : Prop :=
  Forall2 (fun row row' => Forall2 (fun j v => nth_error row j = Some v) idx row') M M'.

Section Num.
  Context {A : arith}.

  (** [vs] lists the cells (i, j) of the matrices [Ps], in order. *)
  Definition cells (Ps : list (list (list A))) (i j : nat) (vs : list A) : Prop :=
    Forall2 (fun P v => cell P i j = Some v) Ps vs.

  (** Sum of a non-empty list, from its first element, left to right. *)
  Definition sum1 (vs : list A) : A := match vs with [] => zero | v :: t => fold_left add t v end.

  (** [P] is, cell by cell, the sum of the [Ps] divided by their number. *)
  Definition mean_of (Ps : list (list (list A))) (P : list (list A)) (r c : nat) : Prop :=
    rect P r c /\
    forall i j, i < r -> j < c -> exists vs q,
      cells Ps i j vs /\ cell P i j = Some q /\ div (sum1 vs) (ofnat (length Ps)) = Ok q.
End Num.

(** Mean of a list of reals. *)
Definition Rmean (l : list R) : R := (Rsum l / INR (length l))%R.
(** A matrix of reals, as numbers of the exact arithmetic. *)
Definition finss (M : list (list R)) : list (list XR.XR) := map fins M.
