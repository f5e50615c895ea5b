(** What an xgboost tree dump says, and what xgboost computes from it. *)
From Coq Require Import String.
From Verif Require Import Model.Py Model.Arith Model.Tree Model.Xgb Spec.Trees.

(** The string [s] is a decimal numeral of [n]. *)
Inductive numeral : pystr -> nat -> Prop :=
| numeral_one : forall d, d < 10 -> numeral [(48 + Z.of_nat d)%Z] d
| numeral_more : forall s n d, numeral s n -> d < 10 -> numeral (s ++ [(48 + Z.of_nat d)%Z]) (10 * n + d).

Section Spec.
  Context {A : arith}.

  (** The rows of [x] from row [nd] on describe the tree: a leaf row has Feature
      "Leaf", no children, a NaN split and its value under Gain; a split row has
      Feature "f<N>", a number as split, and children named "<tree>-<row>". *)
  Inductive dumps (x : xgb_tree A) : nat -> dtree A -> Prop :=
  | dump_leaf : forall nd v h,
      nth_error (x_feature x) nd = Some (lit "Leaf") -> nth_error (x_split x) nd = Some h ->
      nth_error (x_yes x) nd = Some None -> nth_error (x_no x) nd = Some None ->
      nth_error (x_gain x) nd = Some v ->
      dumps x nd (Leaf [v])
  | dump_node : forall nd l r f h sl sr sf tl nl tr nr,
      nth_error (x_feature x) nd = Some (lit "f" ++ sf) -> numeral sf f ->
      nth_error (x_split x) nd = Some h -> isnan h = false ->
      nth_error (x_yes x) nd = Some (Some (tl ++ lit "-" ++ nl)) -> numeral nl l ->
      nth_error (x_no x) nd = Some (Some (tr ++ lit "-" ++ nr)) -> numeral nr r -> l <> r ->
      dumps x l sl -> dumps x r sr ->
      dumps x nd (Node f h sl sr).

  (** Every row of the dump has one of the two forms (so that it can be parsed). *)
  Definition child_ok (c : option pystr) : Prop :=
    match c with None => True | Some s => exists t w k, s = t ++ lit "-" ++ w /\ numeral w k end.
  Definition parsable (x : xgb_tree A) : Prop :=
    Forall (fun s => s = lit "Leaf" \/ exists w k, s = lit "f" ++ w /\ numeral w k) (x_feature x) /\
    Forall child_ok (x_yes x) /\ Forall child_ok (x_no x).

  (** What the constructor can read: a node name is digits, after the last dash
      if there is one; the last character of a feature name that is not an "f"
      is a digit. *)
  Definition digit (c : Z) : Prop := (48 <= c <= 57)%Z.
  Definition child_readable (c : option pystr) : Prop :=
    match c with
    | None => True
    | Some s => exists w, w <> [] /\ Forall digit w /\ (s = w \/ exists p, s = p ++ lit "-" ++ w)
    end.
  Definition feature_readable (s : pystr) : Prop :=
    s = lit "Leaf" \/ exists p c q, s = p ++ c :: q /\ digit c /\ Forall (fun x => [x] = lit "f") q.
  Definition readable (x : xgb_tree A) : Prop :=
    Forall feature_readable (x_feature x) /\ Forall child_readable (x_yes x) /\ Forall child_readable (x_no x).

  (** The rows of the table [df] that belong to tree [i], in their order, and
      their columns. *)
  Inductive rows_of (i : Z) : list (df_row A) -> list (df_row A) -> Prop :=
  | rows_none : rows_of i [] []
  | rows_here : forall r df rs, d_tree r = i -> rows_of i df rs -> rows_of i (r :: df) (r :: rs)
  | rows_other : forall r df rs, d_tree r <> i -> rows_of i df rs -> rows_of i (r :: df) rs.
  Definition dump_of (rs : list (df_row A)) : xgb_tree A :=
    {| x_feature := map d_feature rs; x_split := map d_split rs; x_yes := map d_yes rs; x_no := map d_no rs; x_gain := map d_gain rs |}.

  (** xgboost's rule: Yes when the tested cell is strictly below the split.
      (Missing values, which follow a separate column, are not considered:
      [None] for a NaN cell, and for a feature the row does not have.) *)
  Fixpoint xfall (row : list A) (t : dtree A) : option (list A) :=
    match t with
    | Leaf v => Some v
    | Node f h l r =>
        match nth_error row f with
        | None => None
        | Some x => if isnan x then None else if ltb x h then xfall row l else xfall row r
        end
    end.

  (** No tested cell equals the split it is compared with. *)
  Fixpoint no_tie (row : list A) (t : dtree A) : Prop :=
    match t with
    | Leaf v => True
    | Node f h l r =>
        (forall x, nth_error row f = Some x -> eqb x h = false) /\ no_tie row l /\ no_tie row r
    end.

  (** The same tree with every feature number reduced modulo 10. *)
  Fixpoint mod10 (t : dtree A) : dtree A :=
    match t with
    | Leaf v => Leaf v
    | Node f h l r => Node (f mod 10) h (mod10 l) (mod10 r)
    end.
End Spec.
