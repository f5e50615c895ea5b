(** Vocabulary for C87: which columns of the input a model looks at. *)
From Verif Require Import Model.Py Model.Arith Model.Utils Model.Tree Model.Ensemble Model.Xgb Model.Linear
  Model.Pipeline Model.Est.
From Verif Require Import Spec.Trees.

(** Two tables of [c] columns with the same number of rows that hold the same
    in every column [used]; the other columns may differ in any way. *)
Definition agree_on {T} (used : nat -> Prop) (c : nat) (M M' : list (list T)) : Prop :=
  Forall2 (fun r r' => length r = c /\ length r' = c /\
                       forall j, used j -> nth_error r j = nth_error r' j) M M'.

Section Uses.
  Context {A : arith} {L V : Type}.

  (** Some inner node (one with two different children) tests column [j]. *)
  Definition tree_uses (t : tree A L) (j : nat) : Prop :=
    exists nd l r, nth_error (t_left t) nd = Some l /\ nth_error (t_right t) nd = Some r /\ l <> r /\
                   nth_error (t_feature t) nd = Some (Z.of_nat j).

  (** Column [j] is tested by some tree of the model.  A member of a bagging
      ensemble sees the listed columns, renumbered from 0.  A dummy uses
      nothing; every other kind of estimator counts as using every column. *)
  Fixpoint uses (e : est A L V) (j : nat) : Prop :=
    match e with
    | ETree t | EReg t => tree_uses t j
    | EBagging ms None _ =>
        (fix any (ms : list (est A L V)) := match ms with
                                            | [] => False
                                            | m :: ms => uses m j \/ any ms
                                            end) ms
    | EBagging ms (Some fs) _ =>
        (fix any (ms : list (est A L V)) (fs : list (list Z)) :=
           match ms, fs with
           | m :: ms, f :: fs => (exists k, nth_error f k = Some (Z.of_nat j) /\ uses m k) \/ any ms fs
           | _, _ => False
           end) ms fs
    | EGb ts init _ _ _ _ =>
        (exists row t, In row ts /\ In t row /\ tree_uses t j) \/
        match init with None => False | Some i => uses i j end
    | EXgb g =>
        exists row, In row (xg_estimators g) /\
                    match row with
                    | One t => tree_uses t j
                    | Many l => exists t, In t l /\ tree_uses t j
                    end
    | EDummy _ => False
    | _ => True
    end.

  (** Every tree of the model is one scikit-learn or xgboost builds, and
      bagging members are given columns by their numbers from 0. *)
  Fixpoint trees_fitted (e : est A L V) : Prop :=
    match e with
    | ETree t | EReg t => fitted t
    | EBagging ms fs _ =>
        (fix all (ms : list (est A L V)) := match ms with
                                            | [] => True
                                            | m :: ms => trees_fitted m /\ all ms
                                            end) ms /\
        match fs with None => True | Some fs => Forall (Forall (fun f => 0 <= f)%Z) fs end
    | EGb ts init _ _ _ _ =>
        Forall (Forall fitted) ts /\ match init with None => True | Some i => trees_fitted i end
    | EXgb g => Forall (fun row => match row with One t => fitted t | Many l => Forall fitted l end)
                       (xg_estimators g)
    | _ => True
    end.
End Uses.

(** A linear model uses column [j] when some class has a coefficient there that
    is not 0 (nor -0). *)
Definition linear_uses {A : arith} {L} (c : linear A L) (j : nat) : Prop :=
  exists w v, In w (l_coef c) /\ nth_error w j = Some v /\ eqb v zero = false.

(** Every prediction method gives the same answer, or the same exception, on
    the two tables. *)
Definition same_answers {A : arith} {L V} (o : obj A L V) (M M' : list (list A)) : Prop :=
  (forall g, o_predict o = Some g -> fst (g (DNum (ll M))) = fst (g (DNum (ll M')))) /\
  (forall g, o_proba o = Some g -> fst (g (DNum (ll M))) = fst (g (DNum (ll M')))) /\
  (forall g, o_log_proba o = Some g -> fst (g (DNum (ll M))) = fst (g (DNum (ll M')))).
