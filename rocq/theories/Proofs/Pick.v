(** Rows of a batch chosen, reordered, repeated; shapes of results. *)
From Coq Require Import String Lia.
From Verif Require Import Model.Py Model.Arith Model.Utils Model.Base Model.Hash Model.DictVec
  Model.Text Model.Pipeline.
From Verif Require Import Spec.Batch Spec.Pick Proofs.Lib Proofs.Rows Proofs.Batch.

Section Pick.
  Context {A : arith} {L V : Type}.
  Notation data := (data A V).
  Notation kind := Batch.kind.
  Notation row := (Batch.row (A:=A) (V:=V)).
  Notation build := (Batch.build (A:=A) (V:=V)).
  Notation batch := (Batch.batch (A:=A) (V:=V)).

  Lemma taken_ne : forall {T} idx (l l' : list T), idx <> [] -> taken idx l l' -> l <> [] /\ l' <> [].
  Proof.
    intros T idx l l' N H. destruct H as [|i x idx l' Hx H]; [congruence|]. split; [|discriminate].
    intros ->. destruct i; discriminate.
  Qed.
  Lemma taken_Forall : forall {T} (P : T -> Prop) idx l l', Forall P l -> taken idx l l' -> Forall P l'.
  Proof.
    intros T P idx l l' HP H. induction H as [|i x idx l' Hx H IH]; constructor; auto.
    rewrite Forall_forall in HP. apply HP. eapply nth_error_In; eauto.
  Qed.
  Lemma nth_mapM : forall {S T} (g : S -> res T) l r i x, mapM g l = Ok r -> nth_error l i = Some x ->
    exists y, nth_error r i = Some y /\ g x = Ok y.
  Proof.
    intros S T g l r i x E. apply mapM_Forall2 in E. revert i. induction E as [|a b l r E1 E2 IH]; intros [|i] N; cbn in *; try discriminate; eauto.
    injection N as <-. eauto.
  Qed.
  Lemma taken_mapM : forall {S T} (g : S -> res T) idx l l' r, taken idx l l' -> mapM g l = Ok r ->
    exists r', mapM g l' = Ok r' /\ taken idx r r'.
  Proof.
    intros S T g idx l l' r H E. induction H as [|i x idx l' Hx H IH]; [exists []; split; [auto|constructor]|].
    destruct IH as (r' & E1 & E2). destruct (nth_mapM _ _ _ _ _ E Hx) as (y & N & G). exists (y :: r'). cbn [mapM]. rewrite G, E1. cbn. split; auto. constructor; auto.
  Qed.

  Lemma picked_build : forall idx (X X' : data), idx <> [] -> picked idx X X' ->
    exists k l l', k <> KBad /\ batch k l /\ batch k l' /\ taken idx l l' /\ X = build k l /\ X' = build k l'.
  Proof.
    intros idx X X' N H. destruct H as [c M M' F T|sz dt R R' T|D D' T|D D' T|c M M' F T]; destruct (taken_ne _ _ _ N T) as [N1 N2].
    - exists (KLists c), M, M'. repeat (split; [first [discriminate|assumption|split; [assumption|]; first [assumption|eapply taken_Forall; eauto]]|]). auto.
    - exists (KSparse sz dt), R, R'. assert (G : forall l : list (dict Z A), Forall (fun _ => True) l) by (intro l; induction l; auto).
      repeat (split; [first [discriminate|assumption|split; [assumption|apply G]]|]). auto.
    - exists KDocs, D, D'. assert (G : forall l : list doc, Forall (fun _ => True) l) by (intro l; induction l; auto).
      repeat (split; [first [discriminate|assumption|split; [assumption|apply G]]|]). auto.
    - exists KMaps, D, D'. assert (G : forall l : list (dict pystr (fval A)), Forall (fun _ => True) l) by (intro l; induction l; auto).
      repeat (split; [first [discriminate|assumption|split; [assumption|apply G]]|]). auto.
    - exists (KCats c), M, M'. repeat (split; [first [discriminate|assumption|split; [assumption|]; first [assumption|eapply taken_Forall; eauto]]|]). auto.
  Qed.
  Lemma build_picked : forall idx k l l', k <> KBad -> batch k l -> taken idx l l' -> picked idx (build k l) (build k l').
  Proof.
    intros idx k l l' K [_ F] T. destruct k as [c|sz dt| | |c|]; cbn [Batch.row Batch.build] in *; [| | | | |congruence].
    - apply picked_lists with (c := c); auto.
    - apply picked_sparse; auto.
    - apply picked_docs; auto.
    - apply picked_maps; auto.
    - apply picked_cats with (c := c); auto.
  Qed.

  Lemma pick_transform : forall f : data -> tres A V, row_transform f -> forall idx X X' Y, idx <> [] -> picked idx X X' ->
    t_value (f X) = Ok Y -> exists Y', t_value (f X') = Ok Y' /\ picked idx Y Y'.
  Proof.
    intros f H idx X X' Y N HP E. destruct (picked_build _ _ _ N HP) as (k & l & l' & K & B & B' & T & -> & ->).
    destruct (row_value f H k) as (k' & g & [KB F] & G). apply (G l B) in E. nb E r Er. injection E as <-.
    destruct (taken_mapM g _ _ _ _ T Er) as (r' & Er' & T'). exists (build k' r'). split.
    - apply (G l' B'). rewrite Er'. auto.
    - apply build_picked; auto. apply (batch_mapM k k' g l r F B Er).
  Qed.
  Lemma pick_predict : forall f : data -> res (preds A L), row_predict f -> forall idx X X' p, idx <> [] -> picked idx X X' ->
    f X = Ok p -> exists p', f X' = Ok p' /\ picked_preds idx p p'.
  Proof.
    intros f H idx X X' p N HP E. destruct (picked_build _ _ _ N HP) as (k & l & l' & K & B & B' & T & -> & ->).
    destruct (H k) as (pk & g & G). apply (G l B) in E. nb E r Er. injection E as <-.
    destruct (taken_mapM g _ _ _ _ T Er) as (r' & Er' & T'). exists (mk_preds pk r'). split.
    - apply (G l' B'). rewrite Er'. auto.
    - destruct pk; constructor; exact T'.
  Qed.
  Lemma pick_proba : forall f : data -> res (list (list A)), row_proba f -> forall idx X X' P, idx <> [] -> picked idx X X' ->
    f X = Ok P -> exists P', f X' = Ok P' /\ taken idx P P'.
  Proof.
    intros f H idx X X' P N HP E. destruct (picked_build _ _ _ N HP) as (k & l & l' & K & B & B' & T & -> & ->).
    destruct (H k) as (w & g & _ & G). apply (G l B) in E.
    destruct (taken_mapM g _ _ _ _ T E) as (r' & Er' & T'). exists r'. split; auto. apply (G l' B'). auto.
  Qed.

  Lemma alike_build : forall X X' : data, alike X X' ->
    exists k l l', k <> KBad /\ batch k l /\ batch k l' /\ X = build k l /\ X' = build k l'.
  Proof.
    intros X X' H. destruct H as [c M M' N1 N2 F|sz dt R R' N1 N2|D D' N1 N2|D D' N1 N2|c M M' N1 N2 F].
    - apply Forall_app in F. destruct F as [F1 F2]. exists (KLists c), M, M'. split; [discriminate|]. split; [split; assumption|]. split; [split; assumption|]. auto.
    - exists (KSparse sz dt), R, R'. assert (G : forall l : list (dict Z A), Forall (fun _ => True) l) by (intro l; induction l; auto).
      split; [discriminate|]. split; [split; [assumption|apply G]|]. split; [split; [assumption|apply G]|]. auto.
    - exists KDocs, D, D'. assert (G : forall l : list doc, Forall (fun _ => True) l) by (intro l; induction l; auto).
      split; [discriminate|]. split; [split; [assumption|apply G]|]. split; [split; [assumption|apply G]|]. auto.
    - exists KMaps, D, D'. assert (G : forall l : list (dict pystr (fval A)), Forall (fun _ => True) l) by (intro l; induction l; auto).
      split; [discriminate|]. split; [split; [assumption|apply G]|]. split; [split; [assumption|apply G]|]. auto.
    - apply Forall_app in F. destruct F as [F1 F2]. exists (KCats c), M, M'. split; [discriminate|]. split; [split; assumption|]. split; [split; assumption|]. auto.
  Qed.
  Lemma build_alike : forall k l l', k <> KBad -> batch k l -> batch k l' -> alike (build k l) (build k l').
  Proof.
    intros k l l' K [N F] [N' F']. destruct k as [c|sz dt| | |c|]; cbn [Batch.row Batch.build] in *; [| | | | |congruence].
    - apply alike_lists with (c := c); auto. apply Forall_app; auto.
    - apply alike_sparse; auto.
    - apply alike_docs; auto.
    - apply alike_maps; auto.
    - apply alike_cats with (c := c); auto. apply Forall_app; auto.
  Qed.
  Lemma alike_transform : forall f : data -> tres A V, row_transform f -> forall X X' Y Y', alike X X' ->
    t_value (f X) = Ok Y -> t_value (f X') = Ok Y' -> alike Y Y'.
  Proof.
    intros f H X X' Y Y' HA E E'. destruct (alike_build _ _ HA) as (k & l & l' & K & B & B' & -> & ->).
    destruct (row_value f H k) as (k' & g & [KB F] & G). apply (G l B) in E. apply (G l' B') in E'.
    nb E r Er. injection E as <-. nb E' r' Er'. injection E' as <-.
    apply build_alike; auto; [apply (batch_mapM k k' g l r F B Er)|apply (batch_mapM k k' g l' r' F B' Er')].
  Qed.
  Lemma alike_predict : forall f : data -> res (preds A L), row_predict f -> forall X X' p p', alike X X' ->
    f X = Ok p -> f X' = Ok p' -> alike_preds p p'.
  Proof.
    intros f H X X' Y Y' HA E E'. destruct (alike_build _ _ HA) as (k & l & l' & K & B & B' & -> & ->).
    destruct (H k) as (pk & g & G). apply (G l B) in E. apply (G l' B') in E'.
    nb E r Er. injection E as <-. nb E' r' Er'. injection E' as <-. destruct pk; exact I.
  Qed.
  Lemma alike_proba : forall f : data -> res (list (list A)), row_proba f -> forall X X' P P', alike X X' ->
    f X = Ok P -> f X' = Ok P' -> exists w, Forall (fun r => length r = w) (P ++ P').
  Proof.
    intros f H X X' P P' HA E E'. destruct (alike_build _ _ HA) as (k & l & l' & K & B & B' & -> & ->).
    destruct (H k) as (w & g & W & G). apply (G l B) in E. apply (G l' B') in E'. exists w.
    apply Forall_app. split; [eapply mapM_Forall; [exact W|apply B|exact E]|eapply mapM_Forall; [exact W|apply B'|exact E']].
  Qed.
End Pick.
