(** C50: batches, smaller batches and single rows. *)
From Coq Require Import String Lia.
From Flocq Require Import Core BinarySingleNaN.
From Verif Require Import Model.Py Model.Arith Model.F64 Model.Utils Model.Base Model.Hash Model.DictVec Model.Text Model.Tree Model.Ensemble Model.Xgb
  Model.Linear Model.NaiveBayes Model.Dummy Model.Preprocessing Model.Encoders Model.Impute Model.Pipeline Model.Est.
From Verif Require Import Spec.Est Spec.Batch Proofs.Lib Proofs.Rows Proofs.Batch Proofs.BatchText Proofs.BatchEst.
From Verif Require Import Props.Text.
Local Open Scope nat_scope.

(** C50 for every estimator all of whose parts are [rowwise_part]: for every
    split of a batch into non-empty smaller ones, the batch succeeds with
    result [r] if and only if every smaller batch succeeds and [r] is their
    results one after the other.  Missing: the estimators refuted below. *)
Theorem C50_transform_partial : forall (A : arith) (L V : Type) (veq : V -> V -> bool) vnum U (e : est A L V) f parts X Y,
  (forall p, part e p -> rowwise_part p) -> joined parts X -> o_transform (obj_of veq vnum U e) = Some f ->
  (Pipeline.t_value (f X) = Ok Y <-> exists Ys, each (fun P => Pipeline.t_value (f P)) parts Ys /\ joined Ys Y).
Proof.
  intros A L V veq vnum U e f parts X Y HP HJ E. assert (H := proj1 (est_rows veq vnum U e HP)).
  assert (Q : forall X, call_transform (obj_of veq vnum U e) X = f X) by (intro; unfold call_transform; rewrite E; auto).
  assert (R : row_transform f).
  { intro k. destruct (H k) as [(k' & g & F & G)|(g & F & G)]; [left; exists k', g|right; exists g]; (split; [exact F|]; intros l Hl; rewrite <- Q; apply G; auto). }
  apply split_transform; auto.
Qed.
Print Assumptions C50_transform_partial.

Theorem C50_predict_partial : forall (A : arith) (L V : Type) (veq : V -> V -> bool) vnum U (e : est A L V) f parts X r,
  (forall p, part e p -> rowwise_part p) -> joined parts X -> o_predict (obj_of veq vnum U e) = Some f ->
  (fst (f X) = Ok r <-> exists rs, each (fun P => fst (f P)) parts rs /\ appended rs r).
Proof.
  intros A L V veq vnum U e f parts X r HP HJ E. apply (split_predict (fun X => fst (f X))); auto. apply (est_rows veq vnum U e HP). auto.
Qed.
Print Assumptions C50_predict_partial.

Theorem C50_proba_partial : forall (A : arith) (L V : Type) (veq : V -> V -> bool) vnum U (e : est A L V) f parts X M,
  (forall p, part e p -> rowwise_part p) -> joined parts X ->
  o_proba (obj_of veq vnum U e) = Some f \/ o_log_proba (obj_of veq vnum U e) = Some f ->
  (fst (f X) = Ok M <-> exists Ms, each (fun P => fst (f P)) parts Ms /\ M = concat Ms).
Proof.
  intros A L V veq vnum U e f parts X M HP HJ E. apply (split_proba (fun X => fst (f X))); auto.
  destruct (est_rows veq vnum U e HP) as (_ & _ & H1 & H2). destruct E as [E|E]; auto.
Qed.
Print Assumptions C50_proba_partial.

Definition ones {A : arith} (d : dict Z A) : dict Z A := map (fun kv => (fst kv, one)) d.
Lemma sparse_ne : forall (A : arith) (R : list (dict Z A)) sz dt, R <> [] -> sparse_list R sz dt = Ok (Sp R sz dt).
Proof. intros A [|r R] sz dt N; [congruence|auto]. Qed.
Lemma binarize_sp : forall (A : arith) (R : list (dict Z A)) sz dt, binarize (Sp R sz dt) = Ok (Arr (map Di (map ones R))).
Proof. intros. unfold binarize. cbn [items bind]. rewrite mapM_map, mapM_Ok. cbn [bind]. rewrite map_map. reflexivity. Qed.

(** CountVectorizer with binary=True, which returns a plain list of dicts. *)
Theorem C50_binary_partial : forall (A : arith) (U : textlib) (V : Type) (c : countvec) Ds (Y : data A V),
  cv_binary c = true -> Ds <> [] -> Forall (fun D : list doc => D <> []) Ds ->
  let f := fun D => Z <- count_transform (A:=A) U c (RawDocs D) ;; Ok (DNum Z) in
  (f (concat Ds) = Ok Y <-> exists Ys, each f Ds Ys /\ joined_dicts Ys Y).
Proof.
  intros A U V c Ds Y HB N HN f.
  pose (one_row := fun d => an <- build_analyzer U (cv_conf c) ;; fs <- an d ;; Ok (ones (count_features (A:=A) (cv_vocab c) fs))).
  assert (G : forall D, D <> [] -> oke (f D) (R <- mapM one_row D ;; Ok (DNum (Arr (map Di R))))).
  { intros D ND. unfold f, count_transform. rewrite HB. unfold count_vocab.
    destruct (build_analyzer U (cv_conf c)) as [an|e] eqn:EA; cbn [bind].
    2:{ destruct D; [congruence|]. cbn [mapM]. unfold one_row at 1. apply oke_err. }
    assert (Q : mapM one_row D = (R <- mapM (fun d => fs <- an d ;; Ok (count_features (A:=A) (cv_vocab c) fs)) D ;; Ok (map ones R))).
    { rewrite oke_comp_map. apply mapM_ext. intros d _. unfold one_row. cbn [bind]. rewrite bind_assoc. reflexivity. }
    rewrite Q, !bind_assoc. apply oke_bind_r. intros R ER. assert (NR := mapM_ne _ _ _ ND ER).
    rewrite sparse_ne by auto. cbn [bind]. rewrite binarize_sp. apply oke_refl. }
  split.
  - intro E. apply G in E; [|destruct HN as [|D Ds' HD HN]; [congruence|]; destruct D; [congruence|discriminate]]. nb E R ER. injection E as <-.
    apply mapM_concat in ER. destruct ER as (Rs & ER & ->). exists (map (fun R => DNum (Arr (map Di R))) Rs). split.
    + unfold each. clear N. revert HN. induction ER as [|D R Ds Rs E1 E2 IH]; intro HN; cbn; constructor; inversion HN; subst; auto. apply G; auto. rewrite E1. auto.
    + constructor; [destruct ER; [congruence|discriminate]|]. clear N. revert HN. induction ER as [|D R Ds Rs E1 E2 IH]; intro HN; constructor; inversion HN; subst; auto. eapply mapM_ne; eauto.
  - intros (Ys & E1 & E2). apply G; [destruct HN as [|D Ds' HD HN]; [congruence|]; destruct D; [congruence|discriminate]|].
    assert (H : exists Rs, Forall2 (fun D R => mapM one_row D = Ok R) Ds Rs /\ Ys = map (fun R => DNum (Arr (map Di R))) Rs).
    { clear N E2. revert HN. induction E1 as [|D Q Ds Qs E1 E2 IH]; intro HN; [exists []; auto|]. inversion HN; subst. apply G in E1; auto. nb E1 R F. injection E1 as <-. destruct (IH H2) as (Rs & I1 & ->). exists (R :: Rs). auto. }
    destruct H as (Rs & H1 & ->). inversion E2 as [Rs' NR HR E3 E4]. rewrite (proj2 (mapM_concat one_row Ds (concat Rs))) by eauto. cbn [bind].
    assert (Rs' = Rs); [|subst; auto]. eapply map_inj; [|exact E3]. intros x y Q. injection Q as Q. eapply map_inj; [|exact Q]. congruence.
Qed.
Print Assumptions C50_binary_partial.

(** The full statement is false of two estimators.

    MissingIndicator with error_on_new compares *counts* of missing cells with
    the fitted columns: two rows are accepted one by one and not together. *)
Definition ex_indicator (m : libm) : indicator (F64 m) :=
  {| mi_features := lit "missing-only"; mi_fitted := [1%Z]; mi_nfeat := 2; mi_missing := (B754_nan : F64 m); mi_error := true |}.
Theorem C50_refuted : forall m : libm, exists (t : indicator (F64 m)) (r1 r2 : list (F64 m)) Y1 Y2,
  length r1 = length r2 /\
  indicator_transform t (ll [r1]) = Ok Y1 /\ indicator_transform t (ll [r2]) = Ok Y2 /\
  indicator_transform t (ll [r1; r2]) = Err ValueError.
Proof.
  intro m. pose (r := [one; (B754_nan : F64 m)]). exists (ex_indicator m), r, r.
  assert (H : is_ok (indicator_transform (ex_indicator m) (ll [r])) = true) by (vm_compute; reflexivity).
  assert (H2 : indicator_transform (ex_indicator m) (ll [r; r]) = Err ValueError) by (vm_compute; reflexivity).
  destruct (indicator_transform (ex_indicator m) (ll [r])) as [Y|]; [|discriminate]. exists Y, Y. auto.
Qed.
Print Assumptions C50_refuted.

(** TfidfVectorizer with binary=True: the width of a batch is the number of
    distinct known terms of its first document, so the second document is
    accepted after the first and not alone. *)
Theorem C50_refuted_tfidf_binary : forall m : libm, exists (U : textlib) (c : countvec) (t : tfidf (F64 m)) d1 d2 Y,
  cv_binary c = true /\
  tfidf_vec_transform U c t (RawDocs [d1; d2]) = Ok Y /\
  tfidf_vec_transform U c t (RawDocs [d1]) <> Err NameError /\
  tfidf_vec_transform U c t (RawDocs [d2]) = Err NameError.
Proof.
  intro m. exists ex_lib, (ex_vec true), (ex_tfidf m None), (DocStr (lit "dog cat")), (DocStr (lit "cat")).
  assert (H : is_ok (tfidf_vec_transform ex_lib (ex_vec true) (ex_tfidf m None) (RawDocs [DocStr (lit "dog cat"); DocStr (lit "cat")])) = true) by (vm_compute; reflexivity).
  destruct (tfidf_vec_transform ex_lib (ex_vec true) (ex_tfidf m None) (RawDocs [DocStr (lit "dog cat"); DocStr (lit "cat")])) as [Y|]; [|discriminate]. exists Y.
  split; [reflexivity|]. split; [reflexivity|]. split.
  - assert (H1 : is_ok (tfidf_vec_transform ex_lib (ex_vec true) (ex_tfidf m None) (RawDocs [DocStr (lit "dog cat")])) = true) by (vm_compute; reflexivity). intro E. rewrite E in H1. discriminate.
  - vm_compute. reflexivity.
Qed.
Print Assumptions C50_refuted_tfidf_binary.

(** A pipeline from documents to labels meets the hypotheses, and the batch of
    two documents is joined from two batches of one. *)
Definition ex_lin (m : libm) : linear (F64 m) nat :=
  {| l_coef := [[sub zero one; one]]; l_classes := [7; 8]; l_intercept := Some [zero];
     l_multi := Some (lit "ovr"); l_solver := Some (lit "liblinear"); l_loss := None |}.
Definition ex_pipe (m : libm) : est (F64 m) nat nat :=
  EPipeline [(lit "v", ECount (ex_vec false)); (lit "t", ETfidf (ex_tfidf m None)); (lit "l", ELinear KLogistic (ex_lin m))].
Example C50_hypotheses : forall m : libm,
  (forall p, part (ex_pipe m) p -> rowwise_part p) /\
  joined (A:=F64 m) (V:=nat) [DDocs (RawDocs [DocStr (lit "dog")]); DDocs (RawDocs [DocStr (lit "cat cat"); DocStr (lit "dog cat")])]
         (DDocs (RawDocs [DocStr (lit "dog"); DocStr (lit "cat cat"); DocStr (lit "dog cat")])).
Proof.
  intro m. split.
  - intros p H. unfold ex_pipe in H. inversion H as [|?|?|steps nm e p' HI HP|?]; subst; [exact I|].
    destruct HI as [E|[E|[E|[]]]]; injection E as <- <-; inversion HP; subst; (exact I || reflexivity).
  - apply (joined_docs [[DocStr (lit "dog")]; [DocStr (lit "cat cat"); DocStr (lit "dog cat")]]); [discriminate|repeat constructor; discriminate].
Qed.
Definition labels {A : arith} (r : res (preds A nat)) : res (list nat) :=
  match r with Ok (PLab l) => Ok l | Ok _ => Err TypeError | Err e => Err e end.
Example C50_ex : forall m : libm,
  match o_predict (obj_of (A:=F64 m) Nat.eqb (fun _ => 0) ex_lib (ex_pipe m)) with
  | Some f => (labels (fst (f (DDocs (RawDocs [DocStr (lit "dog"); DocStr (lit "cat cat"); DocStr (lit "dog cat")])))),
               labels (fst (f (DDocs (RawDocs [DocStr (lit "dog")])))),
               labels (fst (f (DDocs (RawDocs [DocStr (lit "cat cat"); DocStr (lit "dog cat")])))))
  | None => (Err TypeError, Err TypeError, Err TypeError)
  end = (Ok [8; 7; 8], Ok [8], Ok [7; 8]).
Proof. intro m. vm_compute. reflexivity. Qed.
