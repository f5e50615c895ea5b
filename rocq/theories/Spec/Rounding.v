(** Doubles as the real numbers they are. *)
From Coq Require Import Reals.
From Flocq Require Import Core BinarySingleNaN.
From Verif Require Import Model.Py Model.F64 Spec.Reals.
Local Open Scope R_scope.

(** The real number a finite double is (0 for the others). *)
Definition real (x : f64) : R := B2R x.
(** The distance from 1 to the next double. *)
Definition ulp1 : R := bpow radix2 (-52).
(** [l] holds finite doubles whose sum, computed exactly, is 1 up to [e]. *)
Definition sums_to_one (e : R) (l : list f64) : Prop :=
  Forall (fun x => is_finite x = true) l /\ Rabs (Rsum (map real l) - 1) <= e.
(** A probability distribution up to [e]: finite doubles in [0,1] whose exact
    sum is 1 up to [e]. *)
Definition near_distribution (e : R) (l : list f64) : Prop :=
  Forall (fun x => is_finite x = true /\ 0 <= real x <= 1) l /\ Rabs (Rsum (map real l) - 1) <= e.
(** The smallest positive double. *)
Definition tiny : R := bpow radix2 (-1074).
(** Sum of the absolute values of the products. *)
Definition Rabsdot (x y : list R) : R := Rdot (map Rabs x) (map Rabs y).
(** A list of finite doubles. *)
Definition all_finite (l : list f64) : Prop := Forall (fun x => is_finite x = true) l.
(** The numbers a list of doubles stands for. *)
Definition reals (l : list f64) : list R := map real l.
(** The row is zero, or its squared norm is well inside the range of doubles. *)
Definition well_scaled (row : list R) : Prop :=
  Rdot row row = 0 \/ bpow radix2 (-960) <= Rdot row row <= bpow radix2 1000.
(** A number far beyond which doubles overflow. *)
Definition huge : R := bpow radix2 1010.
(** The score row . w + b of a linear model, in exact arithmetic. *)
Definition exact_score (row w : list f64) (b : f64) : R := Rdot (reals row) (reals w) + real b.
(** The sum of the absolute values of its terms. *)
Definition score_size (row w : list f64) (b : f64) : R := Rabsdot (reals row) (reals w) + Rabs (real b).
(** A bound on the rounding error of the score. *)
Definition score_error (row w : list f64) (b : f64) : R :=
  (INR (length row) + 2) * ulp1 * score_size row w b + INR (length row) * tiny.
(** The double [v] is the score up to its rounding error. *)
Definition approximates_score (row w : list f64) (b v : f64) : Prop :=
  is_finite v = true /\ Rabs (real v - exact_score row w b) <= score_error row w b.
(** [coef], [b] are finite, as is [row]; no score of [row] comes near overflow. *)
Definition well_sized (coef : list (list f64)) (b : list f64) (row : list f64) : Prop :=
  all_finite row /\ (Z.of_nat (length row) + 1 < 2 ^ 52)%Z /\
  forall k w bk, nth_error coef k = Some w -> nth_error b k = Some bk ->
    all_finite w /\ is_finite bk = true /\ score_size row w bk <= huge.
(** Class [k] wins by more than the rounding errors of the scores. *)
Definition clear_winner (coef : list (list f64)) (b : list f64) (row : list f64) (k : nat) : Prop :=
  exists w bk, nth_error coef k = Some w /\ nth_error b k = Some bk /\
  forall j v bj, j <> k -> nth_error coef j = Some v -> nth_error b j = Some bj ->
    exact_score row v bj + score_error row v bj < exact_score row w bk - score_error row w bk.
(** [p] is [q], entry by entry, up to the relative error [e] and less than the
    smallest positive double. *)
Definition accurate (e : R) (p : list f64) (q : list R) : Prop :=
  Forall2 (fun v r => is_finite v = true /\ Rabs (real v - r) <= e * r + tiny) p q.
(** [p] is [q], entry by entry, up to the absolute error [e]. *)
Definition within (e : R) (p : list f64) (q : list R) : Prop :=
  Forall2 (fun v r => is_finite v = true /\ Rabs (real v - r) <= e) p q.
(** Finite scores between -600 and 600. *)
Definition in_range (l : list f64) : Prop := Forall (fun x => is_finite x = true /\ Rabs (real x) <= 600) l.
(** The scores of all classes, in exact arithmetic. *)
Definition exact_scores (coef : list (list f64)) (b : list f64) (row : list f64) : list R :=
  map (fun wb => exact_score row (fst wb) (snd wb)) (combine coef b).
(** They lie between -599 and 599, and are computed up to [e]. *)
Definition scores_in_range (coef : list (list f64)) (b : list f64) (e : R) (row : list f64) : Prop :=
  forall k w bk, nth_error coef k = Some w -> nth_error b k = Some bk ->
    Rabs (exact_score row w bk) <= 599 /\ score_error row w bk <= e.
