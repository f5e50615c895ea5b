(** Gaussian naive Bayes on doubles: sizes and error bounds of its scores. *)
From Coq Require Import Reals List.
From Flocq Require Import Core BinarySingleNaN.
From Verif Require Import Model.Py Model.F64 Spec.Reals Spec.Bayes Spec.Rounding.
Import ListNotations.
Local Open Scope R_scope.

(** The exact score of [row] for a class with prior [p], variances [sg] and
    means [th]. *)
Definition exact_gauss (p : f64) (sg th row : list f64) : R := Rgauss (real p) (reals sg) (reals th) (reals row).
(** The sum of the absolute values of its terms. *)
Definition gauss_size (p : f64) (sg th row : list f64) : R :=
  Rabs (ln (real p)) + / 2 * Rsum (map (fun s => Rabs (ln (2 * pi64 * real s))) sg) + / 2 * Rsq_dists (reals row) (reals th) (reals sg).
(** A bound on its rounding error, when log has the accuracy [dl]. *)
Definition gauss_error (dl : R) (p : f64) (sg th row : list f64) : R :=
  (dl + (2 * INR (length row) + 8) * ulp1) * gauss_size p sg th row + (10 * INR (length row) + 1) * ulp1.
(** A positive finite prior; variances between 2^-390 and 2^390; means and
    features below 2^190 in size; not more than 2^40 features. *)
Definition tame (p : f64) (sg th row : list f64) : Prop :=
  is_finite p = true /\ 0 < real p /\ length sg = length row /\ length th = length row /\ (Z.of_nat (length row) <= 2 ^ 40)%Z /\
  Forall (fun s => is_finite s = true /\ bpow radix2 (-390) <= real s <= bpow radix2 390) sg /\
  Forall (fun t => is_finite t = true /\ Rabs (real t) <= bpow radix2 190) (th ++ row).
(** Class [k] wins by more than the rounding errors of the scores. *)
Definition gauss_winner (dl : R) (prior : list f64) (SG TH : list (list f64)) (row : list f64) (k : nat) : Prop :=
  exists p sg th, nth_error prior k = Some p /\ nth_error SG k = Some sg /\ nth_error TH k = Some th /\
  forall j p' sg' th', j <> k -> nth_error prior j = Some p' -> nth_error SG j = Some sg' -> nth_error TH j = Some th' ->
    exact_gauss p' sg' th' row + gauss_error dl p' sg' th' row < exact_gauss p sg th row - gauss_error dl p sg th row.
(** The exact scores of [row], class by class. *)
Definition exact_gausses (prior : list f64) (SG TH : list (list f64)) (row : list f64) : list R :=
  map (fun c => exact_gauss (fst c) (fst (snd c)) (snd (snd c)) row) (combine prior (combine SG TH)).
