(** Specification vocabulary for the pairwise metrics. *)
From Coq Require Import Reals.
From Verif Require Import Model.Py Model.Arith Spec.Matrix Spec.Reals Spec.Scaling.

(** The table of [f x y], one row per row of [X], one column per row of [Y]. *)
Definition table {S T U} (f : S -> T -> U) (X : list S) (Y : list T) : list (list U) := map (fun x => map (f x) Y) X.

(** [D] is [M] with every row divided by its Euclidean norm (by 1 when that is
    zero), in the arithmetic [A]. *)
Definition l2_normalised {A : arith} (M D : list (list A)) : Prop :=
  Forall2 (fun row d => exists n, sqrtv (dotp row row) = Ok n /\ divided_by n row d) M D.

(** The cosine of the angle between two real vectors, 0 if one of them is 0. *)
Definition Rcos (x y : list R) : R :=
  if Req_EM_T (Rl2 x) 0 then 0%R else if Req_EM_T (Rl2 y) 0 then 0%R else (Rdot x y / (Rl2 x * Rl2 y))%R.

(** 1 - s brought into [0, 2]. *)
Definition clipped {A : arith} (s d : A) : Prop :=
  let e := add (opp s) one in
  (ltb e zero = true /\ d = zero) \/ (ltb e zero = false /\ ltb (ofZ 2) e = true /\ d = ofZ 2) \/
  (ltb e zero = false /\ ltb (ofZ 2) e = false /\ d = e).
