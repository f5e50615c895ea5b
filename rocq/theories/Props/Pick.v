(** C71, C72: choosing rows of a batch, and the shape of results. *)
From Coq Require Import String Lia.
From Flocq Require Import Core BinarySingleNaN.
From Verif Require Import Model.Py Model.Arith Model.F64 Model.Utils Model.Base Model.Hash Model.DictVec Model.Text Model.Tree Model.Ensemble Model.Xgb
  Model.Linear Model.NaiveBayes Model.Dummy Model.Preprocessing Model.Encoders Model.Impute Model.Pipeline Model.Est.
From Verif Require Import Spec.Est Spec.Batch Spec.Pick Proofs.Lib Proofs.Batch Proofs.BatchEst Proofs.Pick.
From Verif Require Import Props.Text Props.Batch.
Local Open Scope nat_scope.

Section Pick.
Context {A : arith} {L V : Type} (veq : V -> V -> bool) (vnum : A -> V) (U : textlib).
Notation ob := (obj_of veq vnum U).

Lemma row_transform_of : forall (e : est A L V) f, (forall p, part e p -> rowwise_part p) -> o_transform (ob e) = Some f -> row_transform f.
Proof.
  intros e f HP E. assert (H := proj1 (est_rows veq vnum U e HP)).
  assert (Q : forall X, call_transform (ob e) X = f X) by (intro; unfold call_transform; rewrite E; auto).
  intro k. destruct (H k) as [(k' & g & F & G)|(g & F & G)]; [left; exists k', g|right; exists g]; (split; [exact F|]; intros l Hl; rewrite <- Q; apply G; auto).
Qed.

(** C71.  If a batch is accepted, so is any choice of its rows, in any order
    and with repetitions, and the results are chosen likewise.  Missing: the
    estimators that are not [rowwise_part] (C50_refuted). *)
Theorem C71_transform_partial : forall (e : est A L V) f idx X X' Y, (forall p, part e p -> rowwise_part p) ->
  idx <> [] -> picked idx X X' -> o_transform (ob e) = Some f ->
  Pipeline.t_value (f X) = Ok Y -> exists Y', Pipeline.t_value (f X') = Ok Y' /\ picked idx Y Y'.
Proof. intros e f idx X X' Y HP N HK E. apply pick_transform; auto. apply (row_transform_of e); auto. Qed.
Theorem C71_predict_partial : forall (e : est A L V) f idx X X' p, (forall p, part e p -> rowwise_part p) ->
  idx <> [] -> picked idx X X' -> o_predict (ob e) = Some f ->
  fst (f X) = Ok p -> exists p', fst (f X') = Ok p' /\ picked_preds idx p p'.
Proof.
  intros e f idx X X' p HP N HK E. apply (pick_predict (fun X => fst (f X))); auto. apply (est_rows veq vnum U e HP). auto.
Qed.
Theorem C71_proba_partial : forall (e : est A L V) f idx X X' P, (forall p, part e p -> rowwise_part p) ->
  idx <> [] -> picked idx X X' -> o_proba (ob e) = Some f \/ o_log_proba (ob e) = Some f ->
  fst (f X) = Ok P -> exists P', fst (f X') = Ok P' /\ taken idx P P'.
Proof.
  intros e f idx X X' P HP N HK E. apply (pick_proba (fun X => fst (f X))); auto.
  destruct (est_rows veq vnum U e HP) as (_ & _ & H1 & H2). destruct E as [E|E]; auto.
Qed.

(** C72.  The shape of a result depends on the shape of the batch only: batches
    of the same shape give matrices of the same kind and width (and every row
    of one matrix has that width), predictions of the same type, and
    probability rows of the same length. *)
Theorem C72_transform_partial : forall (e : est A L V) f X X' Y Y', (forall p, part e p -> rowwise_part p) ->
  alike X X' -> o_transform (ob e) = Some f ->
  Pipeline.t_value (f X) = Ok Y -> Pipeline.t_value (f X') = Ok Y' -> alike Y Y'.
Proof. intros e f X X' Y Y' HP HA E. apply alike_transform; auto. apply (row_transform_of e); auto. Qed.
Theorem C72_predict_partial : forall (e : est A L V) f X X' p p', (forall p, part e p -> rowwise_part p) ->
  alike X X' -> o_predict (ob e) = Some f -> fst (f X) = Ok p -> fst (f X') = Ok p' -> alike_preds p p'.
Proof. intros e f X X' p p' HP HA E. apply (alike_predict (fun X => fst (f X))); auto. apply (est_rows veq vnum U e HP). auto. Qed.
Theorem C72_proba_partial : forall (e : est A L V) f X X' P P', (forall p, part e p -> rowwise_part p) ->
  alike X X' -> o_proba (ob e) = Some f \/ o_log_proba (ob e) = Some f ->
  fst (f X) = Ok P -> fst (f X') = Ok P' -> exists w, Forall (fun r => List.length r = w) (P ++ P').
Proof.
  intros e f X X' P P' HP HA E. apply (alike_proba (fun X => fst (f X))); auto.
  destruct (est_rows veq vnum U e HP) as (_ & _ & H1 & H2). destruct E as [E|E]; auto.
Qed.
End Pick.
Print Assumptions C71_transform_partial.
Print Assumptions C71_predict_partial.
Print Assumptions C71_proba_partial.
Print Assumptions C72_transform_partial.
Print Assumptions C72_predict_partial.
Print Assumptions C72_proba_partial.

(** The full statement is false of MissingIndicator with error_on_new: a row is
    accepted once and refused when given twice. *)
Theorem C71_refuted : forall m : libm, exists (t : indicator (F64 m)) (M M' : list (list (F64 m))) Y,
  picked (V:=nat) [0; 0] (DNum (ll M)) (DNum (ll M')) /\
  indicator_transform t (ll M) = Ok Y /\ indicator_transform t (ll M') = Err ValueError.
Proof.
  intro m. pose (r := [one; (B754_nan : F64 m)]). exists (ex_indicator m), [r], [r; r].
  assert (H : is_ok (indicator_transform (ex_indicator m) (ll [r])) = true) by (vm_compute; reflexivity).
  assert (H2 : indicator_transform (ex_indicator m) (ll [r; r]) = Err ValueError) by (vm_compute; reflexivity).
  destruct (indicator_transform (ex_indicator m) (ll [r])) as [Y|]; [|discriminate]. exists Y.
  split; [|auto]. apply picked_lists with (c := 2); [repeat constructor|repeat constructor].
Qed.
Print Assumptions C71_refuted.

(** The pipeline of C50_hypotheses meets the hypothesis on [e]; here are three
    documents, and the third, the first and the third of them. *)
Example C71_hypotheses : forall m : libm,
  picked (A:=F64 m) (V:=nat) [2; 0; 2]
    (DDocs (RawDocs [DocStr (lit "dog"); DocStr (lit "cat cat"); DocStr (lit "dog cat")]))
    (DDocs (RawDocs [DocStr (lit "dog cat"); DocStr (lit "dog"); DocStr (lit "dog cat")])).
Proof. intro m. apply picked_docs. repeat (apply Forall2_cons; [reflexivity|]). apply Forall2_nil. Qed.
Example C71_ex : forall m : libm,
  match o_predict (obj_of (A:=F64 m) Nat.eqb (fun _ => 0) ex_lib (ex_pipe m)) with
  | Some f => (labels (fst (f (DDocs (RawDocs [DocStr (lit "dog"); DocStr (lit "cat cat"); DocStr (lit "dog cat")])))),
               labels (fst (f (DDocs (RawDocs [DocStr (lit "cat cat"); DocStr (lit "dog"); DocStr (lit "cat cat")])))))
  | None => (Err TypeError, Err TypeError)
  end = (Ok [8; 7; 8], Ok [7; 8; 7]).
Proof. intro m. vm_compute. reflexivity. Qed.
Example C72_hypotheses : forall m : libm,
  alike (A:=F64 m) (V:=nat) (DDocs (RawDocs [DocStr (lit "dog")])) (DDocs (RawDocs [DocStr (lit "dog cat"); DocStr (lit "")])).
Proof. intro m. apply alike_docs; discriminate. Qed.
