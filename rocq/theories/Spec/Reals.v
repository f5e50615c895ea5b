(** Real-number specifications (no reference to the model's functions). *)
From Coq Require Import Reals.
From Verif Require Import Model.Py Model.Arith Model.XR.
Local Open Scope R_scope.

(** Sum of a list of reals. *)
Fixpoint Rsum (l : list R) : R := match l with [] => 0 | x :: t => x + Rsum t end.
(** Dot product of two lists of reals. *)
Fixpoint Rdot (x y : list R) : R :=
  match x, y with a :: x', b :: y' => a * b + Rdot x' y' | _, _ => 0 end.
(** A list of finite numbers of the exact arithmetic. *)
Definition fins (l : list R) : list XR := map (fun r => XFin r : XR) l.
(** A probability distribution. *)
Definition distribution (p : list R) : Prop :=
  Forall (fun q => 0 <= q <= 1) p /\ Rsum p = 1.
(** Softmax of a list of reals. *)
Definition softmax (l : list R) : list R := map (fun x => exp x / Rsum (map exp l)) l.
(** The logistic function. *)
Definition logistic (x : R) : R := / (1 + exp (- x)).
(** The constant 1.1920929e-07 of the gradient boosting losses, as a double. *)
Definition eps : R := 4503599644147965 * powerRZ 2 (-75).
(** A number forced into [eps, 1 - eps]. *)
Definition clipR (p : R) : R := Rmax eps (Rmin p (1 - eps)).
(** Log-odds. *)
Definition logit (q : R) : R := ln (q / (1 - q)).
(** [i] is the position of the first largest element. *)
Definition Rargmax (l : list R) (i : nat) : Prop :=
  exists v, nth_error l i = Some v /\ (forall j w, nth_error l j = Some w -> w <= v) /\
    (forall j w, (j < i)%nat -> nth_error l j = Some w -> w < v).
