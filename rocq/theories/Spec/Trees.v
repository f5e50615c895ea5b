(** What a fitted decision tree is, and what it computes. *)
From Verif Require Import Model.Py Model.Arith Model.Tree.

(** A binary tree: a leaf carries the fitted values (class counts, or a
    one-element list for a regressor), an inner node a feature number, a
    threshold and the two branches. *)
Inductive dtree (A : arith) :=
| Leaf (v : list A)
| Node (f : nat) (h : A) (l r : dtree A).
Arguments Leaf {A} v.
Arguments Node {A} f h l r.

Section Spec.
  Context {A : arith}.

  (** The leaf a row falls into: left when the tested cell is <= the threshold,
      right otherwise (in particular when it is NaN).  [None] if a tested
      feature does not exist in the row. *)
  Fixpoint fall (row : list A) (t : dtree A) : option (list A) :=
    match t with
    | Leaf v => Some v
    | Node f h l r =>
        match nth_error row f with
        | None => None
        | Some x => if leb x h then fall row l else fall row r
        end
    end.

  (** Every feature tested anywhere in the tree is below [c]. *)
  Fixpoint features_below (c : nat) (t : dtree A) : Prop :=
    match t with
    | Leaf _ => True
    | Node f _ l r => f < c /\ features_below c l /\ features_below c r
    end.

  (** Every leaf satisfies [P]. *)
  Fixpoint all_leaves (P : list A -> Prop) (t : dtree A) : Prop :=
    match t with
    | Leaf v => P v
    | Node _ _ l r => all_leaves P l /\ all_leaves P r
    end.

  Context {L : Type}.

  (** The arrays of a fitted tree (children_left, children_right, feature,
      threshold, value) represent the binary tree [s] at node number [nd]; a
      node whose two children are equal (both -1) is a leaf. *)
  Inductive encodes (t : tree A L) : nat -> dtree A -> Prop :=
  | enc_leaf : forall nd c v,
      nth_error (t_left t) nd = Some c -> nth_error (t_right t) nd = Some c ->
      nth_error (t_value t) nd = Some v ->
      encodes t nd (Leaf v)
  | enc_node : forall nd l r f h sl sr,
      nth_error (t_left t) nd = Some (Z.of_nat l) -> nth_error (t_right t) nd = Some (Z.of_nat r) -> l <> r ->
      nth_error (t_feature t) nd = Some (Z.of_nat f) -> nth_error (t_thr t) nd = Some h ->
      encodes t l sl -> encodes t r sr ->
      encodes t nd (Node f h sl sr).

  (** The shape of the arrays scikit-learn builds: one entry per node in every
      array, children numbered after their parent. *)
  Definition fitted (t : tree A L) : Prop :=
    let n := length (t_left t) in
    1 <= n /\ length (t_right t) = n /\ length (t_feature t) = n /\ length (t_thr t) = n /\ length (t_value t) = n /\
    forall nd, nd < n ->
      (nth_error (t_left t) nd = Some (-1)%Z /\ nth_error (t_right t) nd = Some (-1)%Z) \/
      (exists l r f, nth_error (t_left t) nd = Some (Z.of_nat l) /\ nth_error (t_right t) nd = Some (Z.of_nat r) /\
         nth_error (t_feature t) nd = Some (Z.of_nat f) /\ nd < l < n /\ nd < r < n /\ l <> r).
End Spec.
