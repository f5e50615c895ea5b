(** What naive Bayes classifiers compute. *)
From Coq Require Import Reals.
From Verif Require Import Model.Py Model.Arith Model.XR Model.Base Spec.Matrix Spec.Reals.

Section Spec.
  Context {A : arith}.

  (** math.pi: the double 7074237752028440 / 2^51. *)
  Definition math_pi : A := ofZE 7074237752028440 (-51).

  (** [q] = (x - t)^2 / s. *)
  Definition sq_dist (x t s q : A) : Prop := exists d, sqr (sub x t) = Ok d /\ div d s = Ok q.

  (** [v] is the Gaussian joint log likelihood of [row] for a class with prior [p],
      variances [sg] and means [th]:
      (-1/2 sum_j log(2 pi sg_j) - 1/2 sum_j (x_j - th_j)^2 / sg_j) + log p *)
  Definition gauss_score (p : A) (sg th row : list A) (v : A) : Prop :=
    exists lp ls qs,
      safe_log p = Ok lp /\
      Forall2 (fun s l => safe_log (mul (mul (ofZ 2) math_pi) s) = Ok l) sg ls /\
      length qs = length row /\
      (forall j x q, nth_error row j = Some x -> nth_error qs j = Some q ->
         exists t s, nth_error th j = Some t /\ nth_error sg j = Some s /\ sq_dist x t s q) /\
      v = add (sub (mul (ofZE (-1) (-1)) (psum ls)) (mul (ofZE 1 (-1)) (psum qs))) lp.

  (** [z] = log(sum(exp(x) for x in s)), computed naively. *)
  Definition log_sum_exp (s : list A) (z : A) : Prop :=
    exists es, Forall2 (fun x e => safe_exp x = Ok e) s es /\ safe_log (psum es) = Ok z.
End Spec.

(** The same over the reals. *)
Definition pi64 : R := (7074237752028440 * powerRZ 2 (-51))%R.
Definition Rsq_dists (row th sg : list R) : R :=
  Rsum (map (fun p => (fst p - fst (snd p)) * (fst p - fst (snd p)) / snd (snd p))%R (combine row (combine th sg))).
Definition Rgauss (p : R) (sg th row : list R) : R :=
  (ln p - / 2 * Rsum (map (fun s => ln (2 * pi64 * s)) sg) - / 2 * Rsq_dists row th sg)%R.
