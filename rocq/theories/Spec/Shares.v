(** Exact class shares: what a tree or a forest would answer without rounding. *)
From Coq Require Import Reals.
From Flocq Require Import BinarySingleNaN.
From Verif Require Import Model.Py Model.Arith Model.F64 Spec.Reals Spec.Ensembles Spec.Rounding Spec.Trees.
Local Open Scope R_scope.

(** The share of each class in the counts [v]: the count over the sum. *)
Definition shares (v : list f64) : list R := map (fun x => x / Rsum (reals v)) (reals v).
(** The share of class [j] in the leaf of [s] that [row] falls in. *)
Definition leaf_share (m : libm) (row : list (F64 m)) (j : nat) (s : dtree (F64 m)) : R :=
  match fall row s with Some v => nth j (shares v) 0 | None => 0 end.
(** Its mean over the trees [ss]. *)
Definition forest_share (m : libm) (ss : list (dtree (F64 m))) (row : list (F64 m)) (j : nat) : R :=
  Rmean (map (leaf_share m row j) ss).
(** Leaves with [K] non-negative counts of finite non-zero sum. *)
Definition counts_ok (m : libm) (K : nat) (v : list (F64 m)) : Prop :=
  length v = K /\ Forall (fun n => leb zero n = true) v /\
  is_finite (fold_left f_add v (zero : F64 m)) = true /\ eqb (fold_left f_add v (zero : F64 m) : F64 m) zero = false.
