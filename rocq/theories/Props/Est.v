(** C08 and C43, for every converted estimator, nested ones included. *)
From Coq Require Import String.
From Verif Require Import Model.Py Model.Arith Model.F64 Model.Utils Model.Base Model.DictVec Model.Text
  Model.Tree Model.Dummy Model.Preprocessing Model.Linear Model.Pipeline Model.Est.
From Verif Require Import Spec.Est Proofs.Lib Proofs.Est.

(** C08 is false: check_array returns the exception instead of raising it, so
    a tree then raises TypeError, DummyClassifier returns an empty list and a
    StandardScaler with nothing to do returns the exception object. *)
Theorem C08_refuted : forall (A : arith) (L V : Type) (veq : V -> V -> bool) vnum U,
  let X := DNum (Arr []) : data A V in
  (forall h, check_array (Arr [] : arr A) h = Ok ExnObj) /\
  (forall t : tree A L, exists f, o_predict (obj_of veq vnum U (ETree t)) = Some f /\
     fst (f X) = Err TypeError) /\
  (forall d : dummy A, exists f, o_proba (obj_of (L:=L) veq vnum U (EDummy d)) = Some f /\ fst (f X) = Ok []) /\
  (exists f, o_transform (obj_of (L:=L) veq vnum U
       (EStd {| ss_mean_on := false; ss_std_on := false; ss_scale := None; ss_mean := None |})) = Some f /\
     t_value (f X) = Ok (DNum ExnObj)).
Proof.
  intros A L V veq vnum U X. split; [reflexivity|]. split; [|split].
  - intro t. eexists. split; reflexivity.
  - intro d. eexists. split; reflexivity.
  - eexists. split; reflexivity.
Qed.
Print Assumptions C08_refuted.

(** What is left of C08, for every estimator: no method invents rows.  On an
    empty list (or the exception object an earlier step made of one) transform
    raises, or returns an empty list or the exception object; predict,
    predict_proba and predict_log_proba raise or return an empty list. *)
Theorem C08_partial : forall (A : arith) (L V : Type) (veq : V -> V -> bool) vnum U (e : est A L V) X,
  nothing X ->
  let o := obj_of veq vnum U e in
  (forall f Y, o_transform o = Some f -> t_value (f X) = Ok Y -> nothing Y) /\
  (forall f p, o_predict o = Some f -> fst (f X) = Ok p -> no_preds p) /\
  (forall f P, o_proba o = Some f -> fst (f X) = Ok P -> P = []) /\
  (forall f P, o_log_proba o = Some f -> fst (f X) = Ok P -> P = []).
Proof. intros A L V veq vnum U e X HX o. apply (est_starves veq vnum U e X HX). Qed.
Print Assumptions C08_partial.

(** Beside it: on two rows the same method returns two predictions. *)
Example C08_contrast : forall (A : arith) U,
  exists f, o_proba (obj_of (L:=nat) (V:=nat) Nat.eqb (fun _ : A => 0) U (EDummy {| dm_prior := [one] |})) = Some f /\
    fst (f (DNum (Arr []))) = Ok [] /\ fst (f (DNum (ll [[zero]; [one]]))) = Ok [[one]; [one]].
Proof. intros A U. eexists. repeat split. Qed.

(** C43, false of TfidfTransformer on dict rows (C43_refuted), holds
    everywhere else: a method of an estimator changes its argument only if a
    TfidfTransformer with use_idf occurs in it and the argument has dict rows.
    A pipeline that starts from documents never does, TfidfTransformer or not. *)
Theorem C43_partial : forall (A : arith) (L V : Type) (veq : V -> V -> bool) vnum U (e : est A L V) X m,
  (forall t, part e (ETfidf t) -> tf_use_idf t = false \/ no_dict_rows X) ->
  left_by (obj_of veq vnum U e) m X = X.
Proof. intros A L V veq vnum U e X m H. apply est_keeps; auto. Qed.
Print Assumptions C43_partial.

(** After any history of such calls, by any number of estimators on the same
    data, the data is as it was; so every call gives what it gives on fresh
    data. *)
Theorem C43_history_partial : forall (A : arith) (L V : Type) (veq : V -> V -> bool) vnum U
    (calls : list (est A L V * method)) X,
  (forall e m t, In (e, m) calls -> part e (ETfidf t) -> tf_use_idf t = false \/ no_dict_rows X) ->
  fold_left (fun X em => left_by (obj_of veq vnum U (fst em)) (snd em) X) calls X = X.
Proof.
  intros A L V veq vnum U calls X. induction calls as [|[e m] calls IH]; intro H; [reflexivity|]. cbn [fold_left fst snd].
  rewrite C43_partial; [apply IH; intros; eapply H; [right|]; eauto|]. intros t Ht. eapply H; [left; reflexivity|auto].
Qed.
Print Assumptions C43_history_partial.

(** The hypothesis holds of a pipeline of a CountVectorizer, a TfidfTransformer
    with use_idf and a classifier on documents, and of a StandardScaler on a
    sparse matrix; it fails of the TfidfTransformer on a sparse matrix. *)
Example C43_hypothesis : forall (A : arith) (c : countvec) (t : tfidf A) (l : linear A nat) (s : std_scaler A) docs rows,
  (forall t', part (L:=nat) (V:=nat) (EPipeline [(lit "c", ECount c); (lit "t", ETfidf t); (lit "l", ELinear KPlain l)]) (ETfidf t') ->
     tf_use_idf t' = false \/ no_dict_rows (V:=nat) (DDocs docs : data A nat)) /\
  (forall t', ~ part (L:=nat) (V:=nat) (EStd s) (ETfidf t')) /\
  part (L:=nat) (V:=nat) (EPipeline [(lit "c", ECount c); (lit "t", ETfidf t); (lit "l", ELinear KPlain l)]) (ETfidf t) /\
  ~ no_dict_rows (DNum (Sp rows None DFloat) : data A nat).
Proof.
  intros A c t l s docs rows. split; [right; exact I|]. split; [intros t' H; inversion H|]. split.
  - eapply part_pipeline; [right; left; reflexivity|]. constructor.
  - intro H. exact H.
Qed.
