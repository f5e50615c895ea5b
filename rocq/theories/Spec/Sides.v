(** Vocabulary for C89: what a tree model can see of a cell. *)
From Verif Require Import Model.Py Model.Arith Model.Utils Model.Tree Model.Ensemble Model.Xgb
  Model.Pipeline Model.Est.

(** Two tables of [c] columns with the same number of rows whose cells in
    column [j] lie on the same side of every threshold [h] tested there. *)
Definition same_sides {A : arith} (tested : nat -> A -> Prop) (c : nat) (M M' : list (list A)) : Prop :=
  Forall2 (fun r r' => length r = c /\ length r' = c /\
                       forall j h x x', tested j h -> nth_error r j = Some x -> nth_error r' j = Some x' ->
                                        leb x h = leb x' h) M M'.

Section Tests.
  Context {A : arith} {L V : Type}.

  (** Some inner node compares column [j] with [h]. *)
  Definition tree_tests (t : tree A L) (j : nat) (h : A) : Prop :=
    exists nd l r, nth_error (t_left t) nd = Some l /\ nth_error (t_right t) nd = Some r /\ l <> r /\
                   nth_error (t_feature t) nd = Some (Z.of_nat j) /\ nth_error (t_thr t) nd = Some h.

  (** Some tree of the model compares column [j] with [h].  A member of a
      bagging ensemble sees the listed columns, renumbered from 0. *)
  Fixpoint tests (e : est A L V) (j : nat) (h : A) : Prop :=
    match e with
    | ETree t | EReg t => tree_tests t j h
    | EBagging ms None _ =>
        (fix any (ms : list (est A L V)) := match ms with
                                            | [] => False
                                            | m :: ms => tests m j h \/ any ms
                                            end) ms
    | EBagging ms (Some fs) _ =>
        (fix any (ms : list (est A L V)) (fs : list (list Z)) :=
           match ms, fs with
           | m :: ms, f :: fs => (exists k, nth_error f k = Some (Z.of_nat j) /\ tests m k h) \/ any ms fs
           | _, _ => False
           end) ms fs
    | EGb ts init _ _ _ _ =>
        (exists row t, In row ts /\ In t row /\ tree_tests t j h) \/
        match init with None => False | Some i => tests i j h end
    | EXgb g =>
        exists row, In row (xg_estimators g) /\
                    match row with
                    | One t => tree_tests t j h
                    | Many l => exists t, In t l /\ tree_tests t j h
                    end
    | _ => False
    end.

  (** The model is made of trees and dummies only: a tree, a dummy, an XGBoost
      model, or an ensemble of such models. *)
  Fixpoint tree_model (e : est A L V) : Prop :=
    match e with
    | ETree _ | EReg _ | EXgb _ | EDummy _ => True
    | EBagging ms _ _ =>
        (fix all (ms : list (est A L V)) := match ms with
                                            | [] => True
                                            | m :: ms => tree_model m /\ all ms
                                            end) ms
    | EGb _ init _ _ _ _ => match init with None => True | Some i => tree_model i end
    | _ => False
    end.
End Tests.
