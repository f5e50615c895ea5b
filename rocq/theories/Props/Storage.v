(** C79: a matrix and a sparse_list storing it give the same answers, through
    whole estimators. *)
From Coq Require Import String Lia Sorted.
From Flocq Require Import Core BinarySingleNaN.
From Verif Require Import Model.Py Model.Arith Model.F64 Model.Utils Model.Base Model.Hash Model.DictVec
  Model.Text Model.Tree Model.Ensemble Model.Xgb Model.Linear Model.NaiveBayes
  Model.Dummy Model.Preprocessing Model.Encoders Model.Impute Model.Pipeline Model.Est.
From Verif Require Import Spec.Matrix Spec.Trees Spec.Linear Spec.Pipeline Spec.Storage.
From Verif Require Import Proofs.Lib Proofs.Laws Proofs.Arrays Proofs.Pipeline Proofs.Storage Props.Text Props.Trees.

Section Storage.
Variable (m : libm).
Context {L V : Type} (veq : V -> V -> bool) (vnum : F64 m -> V) (U : textlib).
Notation ob := (obj_of (A:=F64 m) (L:=L) veq vnum U).

(** C79.  On doubles, bit for bit.  A transformer of [scales] turns every matrix
    into a matrix [D] of the fitted width; if no cell of [D] is NaN, it turns
    every sparse_list storing the first into one storing [D] ... *)
Theorem C79_transform_partial : forall (e : est (F64 m) L V) c c', scales e c c' ->
  exists f, o_transform (ob e) = Some f /\
    forall r S M, sparse_of r c S M ->
    exists D, t_value (f (DNum (ll M))) = Ok (DNum (ll D)) /\ rect D r c' /\
      (nan_free D -> exists T, t_value (f (DNum S)) = Ok (DNum T) /\ sparse_of r c' T D).
Proof.
  intros e c c' H. destruct (scales_agree m veq vnum U e c c' H) as (f & E & _ & G). exists f. split; [exact E|]. intros r S M HS.
  destruct (G r S M HS) as (D & E1 & R & N). exists D. split; [exact E1|]. split; [exact R|]. intro ND. exact (proj2 (N ND)).
Qed.
Print Assumptions C79_transform_partial.

(** ... the NaN condition is needed: normalising the row (0, NaN) gives NaN for
    the 0 too, but a 0 that is not stored stays 0, and a tree then answers
    differently. *)
Theorem C79_nan_refuted : exists (e : est (F64 m) nat V) S M f,
  sparse_of 1 2 S M /\ o_predict (obj_of veq vnum U e) = Some f /\
  e = EPipeline [(lit "n", ENormalizer (lit "l2")); (lit "t", EReg (stump m))] /\
  fst (f (DNum S)) = Ok (PNum [ofZ 2]) /\ fst (f (DNum (ll M))) = Ok (PNum [one]).
Proof.
  exists (EPipeline [(lit "n", ENormalizer (lit "l2")); (lit "t", EReg (stump m))]), (Sp [[(1%Z, nanv)]] (Some 2%Z) DFloat), [[zero; nanv]].
  eexists. split; [|split; [reflexivity|split; [reflexivity|split; reflexivity]]].
  split; [split; [reflexivity|repeat constructor]|]. split; [lia|]. eexists. eexists. split; [reflexivity|]. constructor; [|constructor].
  split; [|repeat constructor]. split; [|split].
  - constructor; [intros []|constructor].
  - intros k [<-|[]]. cbn. lia.
  - intros [|[|j]] v E; cbn in E; try discriminate.
    + injection E as <-. right. split; [intros [Q|[]]; discriminate|]. reflexivity.
    + injection E as <-. left. eexists. split; [left; reflexivity|reflexivity].
    + destruct j; discriminate.
Qed.
Print Assumptions C79_nan_refuted.

(** ... a model of [models] answers alike on both, NaNs or not ... *)
Theorem C79_model : forall (e : est (F64 m) L V) c, models e c ->
  forall r S M, sparse_of r c S M -> same_answers (ob e) (DNum S) (DNum (ll M)).
Proof. exact (models_same m veq vnum U). Qed.
Print Assumptions C79_model.

(** ... and so does a pipeline of transformers ending in one, when no NaN
    reaches it. *)
Theorem C79_pipeline_partial : forall steps nm (final : est (F64 m) L V) c c', scales (EPipeline steps) c c' -> models final c' ->
  forall r S M D f, sparse_of r c S M -> o_transform (ob (EPipeline steps)) = Some f ->
  t_value (f (DNum (ll M))) = Ok (DNum (ll D)) -> nan_free D ->
  same_answers (ob (EPipeline (steps ++ [(nm, final)]))) (DNum S) (DNum (ll M)).
Proof. intros. eapply pipeline_same; eauto. Qed.
Print Assumptions C79_pipeline_partial.

(** In particular for the result of tosparse. *)
Theorem C79_tosparse : forall (M : list (list (F64 m))) r c, rect M r c -> 1 <= r -> 1 <= c ->
  exists S, tosparse (ll M) = Ok S /\ sparse_of r c S M.
Proof.
  intros M r c R Hr Hc. eexists. split; [apply (tosparse_ok M r c R Hr Hc)|]. split; auto. split; auto. eexists. eexists. split; [reflexivity|].
  apply Forall2_map_l. clear. induction M; constructor; auto. apply sprow_stores.
Qed.
Print Assumptions C79_tosparse.

(** Two scaled copies of the columns side by side, normalised, then a forest of
    two trees or a linear model: the hypotheses hold ... *)
Definition ex_union : est (F64 m) nat V :=
  EUnion [(lit "s", EStd {| ss_mean_on := false; ss_std_on := true; ss_scale := Some [ofZ 2; ofZ 4]; ss_mean := None |});
          (lit "m", EMaxAbs (Some [ofZ 8; one]))] None.
Definition ex_steps : list (pystr * est (F64 m) nat V) := [(lit "u", ex_union); (lit "n", ENormalizer (lit "l2"))].
Example C79_scales : scales (EPipeline ex_steps) 2 4.
Proof.
  assert (D : forall a b : F64 m, eqb a zero = false -> isnan a = false -> eqb b zero = false -> isnan b = false -> divisors [a; b]).
  { intros a b H1 H2 H3 H4. repeat constructor; auto; unfold is0; intro Q; congruence. }
  apply (s_step _ _ _ _ 4).
  - apply (s_union _ _ _ [2; 2]); [discriminate|]. apply u_cons; [reflexivity| |apply u_cons; [reflexivity| |apply u_nil]].
    + apply (s_std _ [ofZ 2; ofZ 4]); try reflexivity. apply D; reflexivity.
    + apply s_maxabs; [reflexivity|]. apply D; reflexivity.
  - apply s_last. apply s_normalizer. right. reflexivity.
Qed.
Example C79_forest : models (L:=nat) (V:=V) (EBagging [ETree (stump m); ETree (stump m)] None [7; 8]) 4.
Proof. apply mo_forest. intros e [<-|[<-|[]]]; apply (mo_tree (stump m) (stump_spec m)); try apply stump_encodes; cbn; auto; lia. Qed.
Example C79_linear : models (L:=nat) (V:=V) (ELinear KSgd {| l_coef := [[one; zero; ofZ (-2); ofZ 3]]; l_classes := [4; 5]; l_intercept := Some [one];
  l_multi := None; l_solver := None; l_loss := Some (lit "log") |} : est (F64 m) nat V) 4.
Proof.
  apply (mo_linear _ _ 4 1 [one]); [|repeat constructor].
  split; [split; [reflexivity|repeat constructor]|]. split; [lia|]. split; reflexivity.
Qed.
End Storage.

(** ... and the matrix ((2, 0), (0, -4)) reaches the forest without NaN. *)
Example C79_ex : forall m : libm, let M := [[ofZ 2; zero]; [zero; ofZ (-4)]] : list (list (F64 m)) in
  let e := EPipeline (ex_steps m ++ [(lit "f", EBagging [ETree (stump m); ETree (stump m)] None [7; 8])]) in
  exists S, tosparse (ll M) = Ok S /\ same_answers (obj_of Nat.eqb (fun _ => 0) ex_lib e) (DNum S) (DNum (ll M)).
Proof.
  intros m M e. destruct (C79_tosparse m M 2 2) as (S & ES & HS); [split; [reflexivity|repeat constructor]|lia|lia|].
  exists S. split; [exact ES|].
  destruct (C79_transform_partial m Nat.eqb (fun _ => 0) ex_lib _ _ _ (C79_scales m)) as (f & Ef & H). destruct (H 2 S M HS) as (D & ED & _ & _).
  apply (C79_pipeline_partial m Nat.eqb (fun _ => 0) ex_lib (ex_steps m) (lit "f") _ 2 4 (C79_scales m) (C79_forest m) 2 S M D f HS Ef ED).
  assert (G : match o_transform (obj_of Nat.eqb (fun _ => 0) ex_lib (EPipeline (ex_steps m))) with
              | None => false
              | Some f => match t_value (f (DNum (ll M))) with
                          | Ok (DNum (Arr l)) => forallb (fun x => match x with Ls r => forallb (fun v => negb (isnan v)) r | _ => false end) l
                          | _ => false end end = true) by (vm_compute; reflexivity).
  rewrite Ef, ED in G. unfold ll in G. unfold nan_free. apply Forall_forall. intros row Hrow. apply Forall_forall. intros x Hx.
  rewrite forallb_forall in G. specialize (G (Ls row) (in_map _ _ _ Hrow)). rewrite forallb_forall in G. specialize (G x Hx). apply Bool.negb_true_iff in G. exact G.
Qed.
