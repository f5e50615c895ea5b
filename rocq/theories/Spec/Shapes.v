(** Vocabulary for the number of classes of a converted classifier. *)
From Coq Require Import String.
From Verif Require Import Model.Py Model.Arith Model.Utils Model.Tree Model.Ensemble Model.Xgb Model.Linear
  Model.NaiveBayes Model.Dummy Model.Pipeline Model.Est.

Section Shapes.
  Context {A : arith} {L V : Type}.

  (** [e] is a classifier for [k] classes: classes_ has [k] labels, and the
      fitted arrays have the shapes scikit-learn and xgboost give them for [k]
      classes. *)
  Inductive k_classes : est A L V -> nat -> Prop :=
  | k_tree : forall t k, length (t_classes t) = k -> Forall (fun v => length v = k) (Tree.t_value t) ->
      k_classes (ETree t) k
  | k_bagging : forall ms feats cl k, length cl = k -> (forall m, In m ms -> k_classes m k) ->
      k_classes (EBagging ms feats cl) k
  | k_gb_multi : forall ts init lr nf cl k, length cl = k -> k_classes (EGb ts init lr nf (LMulti k) cl) k
  | k_gb_two : forall ts init lr nf ls cl, length cl = 2 -> ls = LBinary \/ ls = LExponential ->
      k_classes (EGb ts init lr nf ls cl) 2
  | k_xgb_multi : forall g k, length (xg_classes g) = k -> xg_objective g = lit "multi:softprob" ->
      xg_nclasses g = Z.of_nat k -> k_classes (EXgb g) k
  | k_xgb_two : forall g, length (xg_classes g) = 2 -> xg_objective g = lit "binary:logistic" -> k_classes (EXgb g) 2
  | k_linear_two : forall kd c b, length (l_classes c) = 2 -> length (l_coef c) = 1 ->
      l_intercept c = Some b -> 1 <= length b -> k_classes (ELinear kd c) 2
  | k_linear_many : forall kd c b k, k <> 1 -> length (l_classes c) = k -> length (l_coef c) = k ->
      l_intercept c = Some b -> length b = k -> k_classes (ELinear kd c) k
  | k_gaussian : forall g k, length (g_classes g) = k -> k_classes (ENb (Gaussian g)) k
  | k_multinomial : forall d k, length (d_classes d) = k -> k_classes (ENb (Multinomial d)) k
  | k_complement : forall d k, length (d_classes d) = k -> length (d_log_prob d) = k -> k_classes (ENb (Complement d)) k
  | k_dummy : forall d k, length (dm_prior d) = k -> k_classes (EDummy d) k
  | k_pipeline : forall pre nm e k, k_classes e k -> k_classes (EPipeline (pre ++ [(nm, e)])) k.

  (** Every row has [k] entries. *)
  Definition of_width (k : nat) (P : list (list A)) : Prop := Forall (fun r => length r = k) P.
End Shapes.
