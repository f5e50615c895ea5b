(** Specification vocabulary for matrices: no reference to the model's
    functions, only to lists, dicts and the number record. *)
From Coq Require Import Sorted.
From Verif Require Import Model.Py Model.Arith.

(** [M] has [r] rows of [c] cells each. *)
Definition rect {T} (M : list (list T)) (r c : nat) : Prop :=
  length M = r /\ Forall (fun row => length row = c) M.

(** The cell in row [i], column [j], if there is one. *)
Definition cell {T} (M : list (list T)) (i j : nat) : option T :=
  match nth_error M i with Some row => nth_error row j | None => None end.

Section Num.
  Context {A : arith}.

  (** [x == 0] *)
  Definition is0 (x : A) : Prop := eqb x zero = true.
  (** Neither infinite nor NaN: [x - x == 0]. *)
  Definition finite (x : A) : Prop := eqb (sub x x) zero = true.

  (** [w] and [v] are the same number, or both are zero (of either sign) and
      [w] is the literal 0. *)
  Definition same_cell (v w : A) : Prop := w = v \/ (is0 v /\ w = zero).

  (** The dict row [d] stores the dense row [r]: keys are distinct column
      numbers of [r]; a stored value is the cell's; a cell not stored is 0. *)
  Definition stores (d : dict Z A) (r : list A) : Prop :=
    NoDup (map fst d) /\
    (forall k, In k (map fst d) -> (0 <= k < Z.of_nat (length r))%Z) /\
    (forall j v, nth_error r j = Some v ->
       (exists w, In (Z.of_nat j, w) d /\ w = v) \/
       (~ In (Z.of_nat j) (map fst d) /\ is0 v)).

  (** ... with its keys in increasing order (as built by tosparse). *)
  Definition stores_sorted (d : dict Z A) (r : list A) : Prop :=
    stores d r /\ StronglySorted Z.lt (map fst d).

  (** Sum of products, left to right from 0: the textbook dot product in the
      order a Python loop evaluates it. *)
  Definition dotp (x y : list A) : A :=
    fold_left (fun acc p => add acc (mul (fst p) (snd p))) (combine x y) zero.

  (** [l[i]] is the largest number of [l] and the first such. *)
  Definition first_max (l : list A) (i : nat) : Prop :=
    exists v, nth_error l i = Some v /\
      (forall j w, nth_error l j = Some w -> ltb v w = false) /\
      (forall j w, j < i -> nth_error l j = Some w -> ltb w v = true).

  (** [i] is where Python's [l.index(max(l))] points: the first largest number,
      NaNs skipped, except that a NaN in first position wins. *)
  Definition best (l : list A) (i : nat) : Prop :=
    (exists v t, l = v :: t /\ isnan v = true /\ i = 0) \/
    (exists h t v, l = h :: t /\ isnan h = false /\ nth_error l i = Some v /\ isnan v = false /\
      (forall j w, nth_error l j = Some w -> ltb v w = false) /\
      (forall j w, j < i -> nth_error l j = Some w -> ltb w v = true \/ isnan w = true)).
End Num.
