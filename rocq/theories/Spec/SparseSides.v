(** Vocabulary for C89 on sparse tables. *)
From Verif Require Import Model.Py Model.Arith Model.Utils Model.Tree Model.Ensemble Model.Pipeline Model.Est.

(** The cell of a stored row in column [j]: an entry that is not stored is 0. *)
Definition sparse_cell {A : arith} (d : dict Z A) (j : nat) : A := dget_default Z.eqb d (Z.of_nat j) zero.

(** Two lists of stored rows of the same length whose cells in column [j] lie
    on the same side of every threshold [h] tested there. *)
Definition sparse_sides {A : arith} (tested : nat -> A -> Prop) (D D' : list (dict Z A)) : Prop :=
  Forall2 (fun d d' => forall j h, tested j h -> leb (sparse_cell d j) h = leb (sparse_cell d' j) h) D D'.

(** No ensemble inside the model hands its members a subset of the columns. *)
Fixpoint no_subsets {A : arith} {L V : Type} (e : est A L V) : Prop :=
  match e with
  | EBagging ms fs _ =>
      fs = None /\ (fix all (ms : list (est A L V)) := match ms with
                                                       | [] => True
                                                       | m :: ms => no_subsets m /\ all ms
                                                       end) ms
  | EGb _ init _ _ _ _ => match init with None => True | Some i => no_subsets i end
  | _ => True
  end.

(** Every prediction method gives the same answer, or the same exception, on
    the two tables. *)
Definition same_answers_at {A : arith} {L V} (o : obj A L V) (X X' : arr A) : Prop :=
  (forall g, o_predict o = Some g -> fst (g (DNum X)) = fst (g (DNum X'))) /\
  (forall g, o_proba o = Some g -> fst (g (DNum X)) = fst (g (DNum X'))) /\
  (forall g, o_log_proba o = Some g -> fst (g (DNum X)) = fst (g (DNum X'))).
