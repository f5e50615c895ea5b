(** What a fitted linear classifier computes. *)
From Coq Require Import String.
From Verif Require Import Model.Py Model.Arith Model.Utils Model.Linear Spec.Matrix.

Section Spec.
  Context {A : arith} {L : Type}.

  (** [K] weight vectors of length [d] and [K] intercepts [b]. *)
  Definition fitted_linear (c : linear A L) (d K : nat) (b : list A) : Prop :=
    rect (l_coef c) K d /\ 1 <= K /\ l_intercept c = Some b /\ length b = K.

  (** The scores [s] of [row]: s[k] = row . coef[k] + b[k]. *)
  Definition affine (coef : list (list A)) (b : list A) (row s : list A) : Prop :=
    length s = length coef /\
    forall k w bk, nth_error coef k = Some w -> nth_error b k = Some bk -> nth_error s k = Some (add (dotp row w) bk).

  (** [d] is the matrix of scores [S], flattened when it has one column. *)
  Definition scores_are (K : nat) (S : list (list A)) (d : dec A) : Prop :=
    (K <> 1 /\ d = D2 S) \/ (K = 1 /\ exists l, S = map (fun x => [x]) l /\ d = D1 l).

  (** The fitted logistic regression uses one-vs-rest probabilities. *)
  Definition ovr_setting (c : linear A L) : Prop :=
    l_multi c = Some (lit "ovr") \/ l_multi c = Some (lit "warn") \/
    (l_multi c = Some (lit "auto") /\ (List.length (l_classes c) <= 2 \/ l_solver c = Some (lit "liblinear"))).
  (** ... or multinomial ones. *)
  Definition multinomial_setting (c : linear A L) : Prop :=
    l_multi c <> None /\ l_solver c <> None /\ ~ ovr_setting c.

  (** [f] is a predict_proba method that uses one-vs-rest probabilities. *)
  Definition one_vs_rest (c : linear A L) (f : arr A -> res (list (list A))) : Prop :=
    (f = logistic_predict_proba c /\ ovr_setting c) \/ (f = sgd_predict_proba c /\ l_loss c = Some (lit "log")).
  (** [f] is a predict_proba method that uses multinomial probabilities. *)
  Definition multinomial (c : linear A L) (f : arr A -> res (list (list A))) : Prop :=
    f = logistic_predict_proba c /\ multinomial_setting c.

  (** [v] is strictly above every other element of [l] and sits at [i]. *)
  Definition strict_max (l : list A) (i : nat) : Prop :=
    exists v, nth_error l i = Some v /\ forall j w, j <> i -> nth_error l j = Some w -> ltb w v = true.
End Spec.
