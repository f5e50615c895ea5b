(** Vocabulary for histories of calls and modifications. *)
From Verif Require Import Model.Py Model.Arith Model.Text Model.Dummy Model.Pipeline Model.Est Model.FastText Model.Sharing.

Section Sharing.
  Context {A : arith} {L V : Type}.

  (** A DummyClassifier, or a pipeline (of pipelines ...) ending in one;
      [prior] is its list of class probabilities. *)
  Inductive ends_in_dummy : est A L V -> list A -> Prop :=
  | ends_dummy : forall d, ends_in_dummy (EDummy d) (dm_prior d)
  | ends_pipeline : forall pre nm e prior, ends_in_dummy e prior ->
      ends_in_dummy (EPipeline (pre ++ [(nm, e)])) prior.

  Definition is_proba (ev : event A V) : bool := match ev with Call MProba _ => true | _ => false end.

  (** Calls that return a vector of the matrix. *)
  Definition is_vector (ev : fevent A) : bool :=
    match ev with FCall (FInput _) | FCall (FWord _) => true | _ => false end.
End Sharing.
