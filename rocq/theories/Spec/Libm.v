(** What theorems assume of the C library's exp and log (each theorem names the
    hypotheses it uses).  [Proofs/CRLibm.v] shows that the correctly rounded
    functions satisfy all of them. *)
From Coq Require Import Reals.
From Flocq Require Import Core BinarySingleNaN.
From Verif Require Import Model.Py Model.Arith Model.F64.
Local Open Scope R_scope.

(** exp returns a finite non-negative double, unless it overflows. *)
Definition exp_nonneg (m : libm) : Prop :=
  forall x y, is_finite x = true -> m_exp m x = Some y -> is_finite y = true /\ 0 <= B2R y.
(** exp does not overflow at or below 0, and is at most 1 there. *)
Definition exp_le1 (m : libm) : Prop :=
  forall x, is_finite x = true -> B2R x <= 0 -> exists y, m_exp m x = Some y /\ is_finite y = true /\ 0 <= B2R y <= 1.
(** exp(0) = 1 *)
Definition exp_at_0 (m : libm) : Prop :=
  forall s, exists y, m_exp m (B754_zero s) = Some y /\ is_finite y = true /\ B2R y = 1.
(** exp overflows at x (e.g. 1000). *)
Definition exp_overflows (m : libm) (x : f64) : Prop := m_exp m x = None.
(** exp underflows to zero at x (e.g. -1000). *)
Definition exp_underflows (m : libm) (x : f64) : Prop := exists s, m_exp m x = Some (B754_zero s).
(** log of a finite positive double is a finite double. *)
Definition log_finite (m : libm) : Prop :=
  forall x, is_finite x = true -> 0 < B2R x -> is_finite (m_log m x) = true.
(** exp is monotone (and stays overflowed above an overflow). *)
Definition exp_monotone (m : libm) : Prop :=
  forall x y, is_finite x = true -> is_finite y = true -> B2R x <= B2R y ->
    match m_exp m x, m_exp m y with
    | Some a, Some b => B2R a <= B2R b
    | None, Some _ => False
    | _, None => True
    end.
(** exp is accurate to the relative error [d] (plus less than the smallest
    positive double, near underflow) for arguments up to 600. *)
Definition exp_accurate (m : libm) (d : R) : Prop :=
  forall x, is_finite x = true -> B2R x <= 600 ->
    exists y, m_exp m x = Some y /\ is_finite y = true /\ 0 <= B2R y /\
      Rabs (B2R y - exp (B2R x)) <= d * exp (B2R x) + bpow radix2 (-1074).
(** The same for log at positive doubles. *)
Definition log_accurate (m : libm) (d : R) : Prop :=
  forall x, is_finite x = true -> 0 < B2R x ->
    is_finite (m_log m x) = true /\ Rabs (B2R (m_log m x) - ln (B2R x)) <= d * Rabs (ln (B2R x)) + bpow radix2 (-1074).
