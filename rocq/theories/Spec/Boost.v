(** Gradient boosting on doubles: the exact score of a row and class, and when it
    is small enough for its rounding error to be bounded. *)
From Coq Require Import Reals List.
From Flocq Require Import Core BinarySingleNaN.
From Verif Require Import Model.Py Model.F64 Spec.Reals Spec.Rounding.
Import ListNotations.
Local Open Scope R_scope.

(** The double nearest to 1 - 1.1920929e-07. *)
Definition top64 : R := 1 - 1073741828 * powerRZ 2 (-53).
(** A number forced into [1.1920929e-07, 1 - 1.1920929e-07], as on doubles. *)
Definition clip64 (p : R) : R := Rmax eps (Rmin p top64).
(** The sum of the absolute values of lr times the tree predictions [qs], and of
    the largest possible initial score. *)
Definition stage_size (lr : f64) (qs : list f64) : R := Rabs (real lr) * Rsum (map Rabs (reals qs)) + 24.
(** Finite predictions whose score stays below 590 in size and is computed up to
    the error [e], when log has the accuracy [dl]. *)
Definition good_stages (dl e : R) (lr : f64) (qs : list f64) : Prop :=
  is_finite lr = true /\ all_finite qs /\ (Z.of_nat (length qs) + 1 < 2 ^ 52)%Z /\ stage_size lr qs <= 590 /\
  (INR (length qs) + 8) * ulp1 * stage_size lr qs + (INR (length qs) + 1) * tiny + 24 * dl <= e.
(** Position [k] exceeds every other by at least [g]. *)
Definition leads_by (g : R) (s : list R) (k : nat) : Prop :=
  exists x, nth_error s k = Some x /\ forall j y, j <> k -> nth_error s j = Some y -> y + g <= x.
