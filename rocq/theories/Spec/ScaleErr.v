(** Scalers on doubles: what fit computes, and how far results may be off. *)
From Coq Require Import Reals List.
From Flocq Require Import Core BinarySingleNaN.
From Verif Require Import Model.Py Model.Arith Model.F64 Spec.Reals Spec.Rounding.
Import ListNotations.
Local Open Scope R_scope.

(** How far outside the target range [lo, hi] the image of a value of the data
    range [a, z] may be. *)
Definition range_slack (lo hi a z : R) : R :=
  10 * ulp1 * (Rabs lo + Rabs hi + Rmax (Rabs a) (Rabs z) * ((hi - lo) / (z - a))) + (4 + 3 * Rmax (Rabs a) (Rabs z)) * tiny.
(** The scale and offset scikit-learn's MinMaxScaler.fit computes for a column
    whose smallest and largest values are [a] and [z]:
    scale = (hi - lo) / (z - a), offset = lo - a * scale. *)
Definition fit_column (lo hi a z s b : f64) : Prop :=
  f_div (f_sub hi lo) (f_sub z a) = Ok s /\ b = f_sub lo (f_mul a s).
(** All four are finite and below 2^300 in size; the ranges are not reversed,
    and the data range is not below 2^-300. *)
Definition sound_range (lo hi a z : f64) : Prop :=
  Forall (fun x => is_finite x = true /\ Rabs (real x) <= bpow radix2 300) [lo; hi; a; z] /\
  real lo <= real hi /\ bpow radix2 (-300) <= real z - real a.
(** Zero, or between 2^-400 and 2^400 in size. *)
Definition sized_prod (p : R) : Prop := p = 0 \/ bpow radix2 (-400) <= Rabs p <= bpow radix2 400.
(** The exact products of [row] and the weights [idf]. *)
Definition exact_weights (row idf : list f64) : list R := map (fun p => real (fst p) * real (snd p)) (combine row idf).
