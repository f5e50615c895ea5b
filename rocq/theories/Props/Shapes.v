(** C73, C74: one probability per class, and a label wherever there are
    probabilities. *)
From Coq Require Import String Lia.
From Verif Require Import Model.Py Model.Arith Model.F64 Model.Utils Model.Base Model.Hash Model.DictVec
  Model.Text Model.Tree Model.Ensemble Model.Xgb Model.Linear Model.NaiveBayes
  Model.Dummy Model.Preprocessing Model.Encoders Model.Impute Model.Pipeline Model.Est.
From Verif Require Import Spec.Matrix Spec.Shapes Proofs.Lib Proofs.Laws Proofs.Argmax
  Proofs.Est Proofs.Shapes Props.Pipeline Props.Trees Props.Api.

Section Shapes.
Context {A : arith} {L V : Type} (veq : V -> V -> bool) (vnum : A -> V) (U : textlib).
Notation ob := (obj_of veq vnum U).

(** C73.  A classifier fitted for [k] classes gives [k] numbers per row from
    predict_proba and from predict_log_proba, whatever the input ... *)
Theorem C73_widths : forall (e : est A L V) k f X P, k_classes e k ->
  o_proba (ob e) = Some f \/ o_log_proba (ob e) = Some f -> fst (f X) = Ok P -> Forall (fun r => List.length r = k) P.
Proof. intros e k f X P H F E. exact (proj1 (width_all veq vnum U e k H) f X P F E). Qed.
(** ... and, where it has classes_, one label for each of them. *)
Theorem C73_classes : forall (e : est A L V) k cl, k_classes e k -> o_classes (ob e) = Some cl -> List.length cl = k.
Proof. intros e k cl H E. exact (proj2 (width_all veq vnum U e k H) cl E). Qed.

(** C74.  Whenever predict_proba gives an answer, predict is there and gives
    one too. *)
Theorem C74_label : forall (e : est A L V) k f X P, ord_ok A -> k_classes e k -> 1 <= k ->
  o_proba (ob e) = Some f -> fst (f X) = Ok P -> exists g p, o_predict (ob e) = Some g /\ fst (g X) = Ok p.
Proof. intros e k f X P OK H Hk. exact (label_all veq vnum U OK e k H Hk f X P). Qed.
End Shapes.
Print Assumptions C73_widths.
Print Assumptions C73_classes.
Print Assumptions C74_label.

(** The pipeline of C65_ex ending in a forest, on its two rows. *)
Section Examples.
  Variable m : libm.
  Let A := F64 m.
  Example C73_hypotheses : k_classes (ex_nested m (ex_forest m)) 2.
  Proof.
    apply (k_pipeline [(lit "s", ex_std m)] (lit "p")). apply (k_pipeline [(lit "i", ex_id m)] (lit "c")). apply k_bagging; [reflexivity|].
    intros e [<-|[]]. apply k_tree; [reflexivity|]. repeat constructor.
  Qed.
  Example C73_ex : exists f P, o_proba (ex_obj m (ex_nested m (ex_forest m))) = Some f /\ fst (f (ex_X m)) = Ok P /\ List.length P = 2 /\
    Forall (fun r => List.length r = 2) P.
  Proof.
    destruct (C68_ex m) as (f & g & _ & Eg & _ & P & EP & HP). exists g, P. split; [exact Eg|]. split; [exact EP|]. split; [exact HP|].
    exact (C73_widths _ _ _ _ 2 g (ex_X m) P C73_hypotheses (or_introl Eg) EP).
  Qed.
  Example C74_ex : exists g, o_predict (ex_obj m (ex_nested m (ex_forest m))) = Some g /\ fst (g (ex_X m)) = Ok (PLab [7; 7]).
  Proof. destruct (C66_ex m) as (g & E & E' & _). exists g. split; assumption. Qed.
End Examples.
