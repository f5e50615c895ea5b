(** Specification vocabulary for the imputer and the missing indicator. *)
From Coq Require Import Sorted.
From Verif Require Import Model.Py Model.Arith Spec.Matrix.

Section Spec.
  Context {A : arith}.
  (** [v] is a missing value: a NaN if the marker is NaN, otherwise a value
      equal to the marker. *)
  Definition missing (mark v : A) : Prop :=
    (isnan mark = true /\ isnan v = true) \/ (isnan mark = false /\ eqb v mark = true).
  (** 1.0 (True) for a missing value and 0.0 (False) for any other one *)
  Definition flag (mark v x : A) : Prop := (missing mark v -> x = one) /\ (~ missing mark v -> x = zero).
  (** the statistic for a missing value and the value itself otherwise *)
  Definition filled (mark s v x : A) : Prop := (missing mark v -> x = s) /\ (~ missing mark v -> x = v).
  (** [fs] is an increasing list of column numbers below [c]. *)
  Definition columns (c : nat) (fs : list nat) : Prop := StronglySorted lt fs /\ Forall (fun j => j < c)%nat fs.
  (** the flags of the columns [fs] of a row *)
  Definition flag_row (mark : A) (fs : list nat) (row out : list A) : Prop :=
    Forall2 (fun j x => exists v, nth_error row j = Some v /\ flag mark v x) fs out.
  (** the columns [ks] of a row, missing cells replaced by their statistic *)
  Definition filled_row (mark : A) (stats : list A) (ks : list nat) (row out : list A) : Prop :=
    Forall2 (fun j x => exists v s, nth_error row j = Some v /\ nth_error stats j = Some s /\ filled mark s v x) ks out.
  (** the columns an imputer keeps: all with the constant strategy, otherwise
      those whose statistic is not NaN *)
  Definition kept (constant : bool) (stats : list A) (ks : list nat) : Prop :=
    columns (length stats) ks /\
    forall j s, nth_error stats j = Some s -> (In j ks <-> constant = true \/ isnan s = false).
  (** column [j] of [M] has exactly [n] missing cells *)
  Inductive missing_count (mark : A) (j : nat) : list (list A) -> nat -> Prop :=
  | mc_nil : missing_count mark j [] 0
  | mc_yes : forall row v M n, nth_error row j = Some v -> missing mark v ->
      missing_count mark j M n -> missing_count mark j (row :: M) (S n)
  | mc_no : forall row v M n, nth_error row j = Some v -> ~ missing mark v ->
      missing_count mark j M n -> missing_count mark j (row :: M) n.
  (** column [j] has a missing cell *)
  Definition has_missing (mark : A) (M : list (list A)) (j : nat) : Prop :=
    exists i v, cell M i j = Some v /\ missing mark v.
End Spec.
