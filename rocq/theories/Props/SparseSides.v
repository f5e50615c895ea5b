(** C87 and C89 on sparse tables. *)
From Coq Require Import String Lia.
From Verif Require Import Model.Py Model.Arith Model.F64 Model.Utils Model.Base Model.Text Model.Tree
  Model.Ensemble Model.Linear Model.Dummy Model.Pipeline Model.Est.
From Verif Require Import Spec.Trees Spec.Unused Spec.Sides Spec.SparseSides Proofs.Lib Proofs.Laws Proofs.SparseSides Props.Unused Props.Sides.
Local Open Scope nat_scope.

(** C89.  Trees and forests on sparse tables: if the cells of two tables (0
    where nothing is stored) lie on the same side of every threshold the model
    compares their column with, all prediction methods answer the same, bit for
    bit.  What else is stored, and in which order, does not matter.  Ensembles
    with column subsets are excluded (on sparse input they raise KeyError, see
    C13); gradient boosting and XGBoost answer ValueError to both tables. *)
Theorem C89_sparse : forall (A : arith) (L V : Type) (veq : V -> V -> bool) (vnum : A -> V) (U : textlib)
  (e : est A L V) sz dt (D D' : list (dict Z A)),
  tree_model e -> trees_fitted e -> no_subsets e -> sparse_sides (tests e) D D' ->
  same_answers_at (obj_of veq vnum U e) (Sp D sz dt) (Sp D' sz dt).
Proof. intros A L V veq vnum U e sz dt D D' T F S H. exact (obj_sps veq vnum U sz dt e F T S D D' H). Qed.
Print Assumptions C89_sparse.

(** C87.  In particular entries stored in columns no tree tests do not matter. *)
Theorem C87_sparse : forall (A : arith) (L V : Type) (veq : V -> V -> bool) (vnum : A -> V) (U : textlib)
  (e : est A L V) sz dt (D D' : list (dict Z A)),
  tree_model e -> trees_fitted e -> no_subsets e ->
  Forall2 (fun d d' => forall j h, tests e j h -> sparse_cell d j = sparse_cell d' j) D D' ->
  same_answers_at (obj_of veq vnum U e) (Sp D sz dt) (Sp D' sz dt).
Proof.
  intros A L V veq vnum U e sz dt D D' T F S H. apply C89_sparse; auto.
  eapply Forall2_imp; [|exact H]. intros d d' Q j h Hj. cbn beta in Q. rewrite (Q j h Hj). reflexivity.
Qed.
Print Assumptions C87_sparse.

(** A forest testing column 0 against 0: an entry in column 1 appears, a stored
    0 disappears, 3 becomes 1. *)
Definition forest1 (m : libm) : est (F64 m) nat nat := EBagging [ETree (split0 m); ETree (split0 m)] None [7; 9].
Example C89_sparse_ex : forall m (U : textlib), exists g,
  let D : list (dict Z (F64 m)) := [[(0%Z, ofZ 3)]; [(0%Z, zero)]] in
  let D' : list (dict Z (F64 m)) := [[(1%Z, nanv); (0%Z, one)]; [(1%Z, ofZ 4)]] in
  sparse_sides (tests (forest1 m)) D D' /\ tree_model (forest1 m) /\ trees_fitted (forest1 m) /\ no_subsets (forest1 m) /\
  o_predict (obj_of Nat.eqb (fun _ => 0) U (forest1 m)) = Some g /\
  fst (g (DNum (Sp D (Some 2%Z) DFloat))) = fst (g (DNum (Sp D' (Some 2%Z) DFloat))) /\
  fst (g (DNum (Sp D (Some 2%Z) DFloat))) = Ok (PLab [9; 7]).
Proof.
  intros m U. eexists. intros D D'.
  assert (N : forall j (h : F64 m), tests (forest1 m) j h -> j = 0 /\ h = zero).
  { intros j h [H|[H|[]]]; destruct H as (nd & l & r & E1 & E2 & N & E3 & E4); (destruct nd as [|[|[|nd]]]; cbn in E1, E2;
      [|congruence|congruence|destruct nd; discriminate]); injection E3 as E3; injection E4 as <-; (destruct j; [auto|discriminate]). }
  assert (H : sparse_sides (tests (forest1 m)) D D').
  { constructor; [|constructor; [|constructor]]; intros j h Hj; apply N in Hj; destruct Hj as [-> ->]; vm_compute; reflexivity. }
  assert (F : trees_fitted (forest1 m)) by (pose proof (split0_fitted m); cbn [forest1 trees_fitted]; tauto).
  assert (T : tree_model (forest1 m)) by (cbn; tauto).
  assert (S : no_subsets (forest1 m)) by (cbn; tauto).
  repeat (split; [assumption|]). split; [reflexivity|]. split.
  - destruct (C89_sparse (F64 m) nat nat Nat.eqb (fun _ => 0) U (forest1 m) (Some 2%Z) DFloat D D' T F S H) as (P & _). exact (P _ eq_refl).
  - apply labelled_ok. vm_compute. reflexivity.
Qed.
