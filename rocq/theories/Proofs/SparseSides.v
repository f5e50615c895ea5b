(** As Proofs/Sides.v, on sparse tables. *)
From Coq Require Import String Lia.
From Verif Require Import Model.Py Model.Arith Model.Utils Model.Base Model.Hash Model.DictVec
  Model.Text Model.Tree Model.Ensemble Model.Xgb Model.Linear Model.NaiveBayes
  Model.Dummy Model.Preprocessing Model.Encoders Model.Impute Model.Pipeline Model.Est.
From Verif Require Import Spec.Trees Spec.Unused Spec.Sides Spec.SparseSides Proofs.Lib Proofs.Laws Proofs.Tree Proofs.Unused.
Local Open Scope nat_scope.

Section SparseSides.
  Context {A : arith} {L V : Type} (veq : V -> V -> bool) (vnum : A -> V) (U : textlib).
  Context (sz : option Z) (dt : dtype).

  Lemma sps_weaken : forall (u w : nat -> A -> Prop) (M M' : list (dict Z A)), (forall j h, w j h -> u j h) -> sparse_sides u M M' -> sparse_sides w M M'.
  Proof. intros u w M M' H G. unfold sparse_sides in *. induction G as [|r r' M M' Z G IH]; constructor; auto. Qed.
  Lemma sps_len : forall u (M M' : list (dict Z A)), sparse_sides u M M' -> length M = length M'.
  Proof. intros u M M' H. induction H; cbn; congruence. Qed.
  Lemma sps_shape : forall u (M M' : list (dict Z A)), sparse_sides u M M' -> shape (Sp M sz dt) = shape (Sp M' sz dt).
  Proof.
    intros u M M' H. pose proof (sps_len _ _ _ H) as E. destruct H as [|r r' M M' _ G]; [reflexivity|].
    cbn in E. cbn. rewrite !map_length. injection E as ->. reflexivity.
  Qed.
  Lemma sps_size : forall u (M M' : list (dict Z A)), sparse_sides u M M' -> len (Sp M sz dt) = len (Sp M' sz dt).
  Proof. intros u M M' H. unfold len. cbn. rewrite !map_length, (sps_len _ _ _ H). reflexivity. Qed.

  (** ** Trees *)
  Lemma descend_sps : forall (t : tree A L) (r r' : dict Z A), fitted t ->
    (forall j h, tree_tests t j h -> leb (sparse_cell r j) h = leb (sparse_cell r' j) h) ->
    forall fuel nd, nd < length (t_left t) -> descend t (Di r) fuel (Z.of_nat nd) = descend t (Di r') fuel (Z.of_nat nd).
  Proof.
    intros t r r' (H1 & HR & HF & HT & HV & HN) HU. induction fuel as [|n IH]; intros nd Hnd; [reflexivity|]. cbn [descend].
    destruct (HN nd Hnd) as [[EL ER]|(l & k & f & EL & ER & EF & Bl & Bk & NE)].
    - rewrite !lget_nn, EL, ER. cbn [bind]. reflexivity.
    - rewrite !lget_nn, EL, ER. cbn [bind]. destruct (_ =? _)%Z; [reflexivity|].
      unfold split_value. rewrite !lget_nn, EF. cbn [bind].
      destruct (nth_error (t_thr t) nd) as [h|] eqn:Eh; cbn [bind]; [|reflexivity].
      assert (Q := HU f h). unfold sparse_cell in Q. rewrite Q. 2:{ exists nd, (Z.of_nat l), (Z.of_nat k). repeat split; auto. intro W. apply NE. lia. }
      clear Q. destruct (leb _ h); apply IH; lia.
  Qed.
  Lemma leaves_sps : forall (t : tree A L) M M', fitted t -> sparse_sides (tree_tests t) M M' -> leaves t (Sp M sz dt) = leaves t (Sp M' sz dt).
  Proof.
    intros t M M' F H. unfold leaves. cbn [check_array items bind]. rewrite !mapM_map.
    induction H as [|r r' M M' Z G IH]; [reflexivity|]. cbn [mapM]. rewrite IH.
    assert (E : get_leaf_node t (Di r) = get_leaf_node t (Di r')).
    { unfold get_leaf_node. apply (descend_sps t r r' F Z _ 0). destruct F; lia. }
    rewrite E. reflexivity.
  Qed.
  Lemma reg_sps : forall (t : tree A L) M M', fitted t -> sparse_sides (tree_tests t) M M' -> reg_predict t (Sp M sz dt) = reg_predict t (Sp M' sz dt).
  Proof. intros t M M' F H. unfold reg_predict. rewrite (leaves_sps t M M' F H). reflexivity. Qed.
  Lemma bagging_sps : forall (b : bagging A L) X X',
    (forall i, member_proba b X i = member_proba b X' i) -> bagging_predict_proba b X = bagging_predict_proba b X'.
  Proof.
    intros b M M' H. unfold bagging_predict_proba. apply bind_on; [apply H|]. intros p0 _. apply bind_on; [|reflexivity].
    apply foldM_on. intros a i _. rewrite H. reflexivity.
  Qed.

  (** Gradient boosting and XGBoost refuse sparse input. *)
  Lemma gb_sps : forall (g : gb A L) M, gb_raw_predict g (Sp M sz dt) = Err ValueError.
  Proof. reflexivity. Qed.
  Lemma xgb_sps : forall (g : xgb A L) M, xgb_predict_proba g (Sp M sz dt) = Err ValueError.
  Proof. reflexivity. Qed.

  (** ** Objects *)
  Lemma sps_proba_of : forall (o : obj A L V) M M', same_answers_at o (Sp M sz dt) (Sp M' sz dt) -> proba_of o (Sp M sz dt) = proba_of o (Sp M' sz dt).
  Proof. intros o M M' (_ & H & _). unfold proba_of. destruct (o_proba o) as [g|]; [apply H|]; reflexivity. Qed.
  Lemma sps_classifier : forall (p : arr A -> res (list L)) pp lp cl M M', p (Sp M sz dt) = p (Sp M' sz dt) -> (forall f, pp = Some f -> f (Sp M sz dt) = f (Sp M' sz dt)) ->
    (forall f, lp = Some f -> f (Sp M sz dt) = f (Sp M' sz dt)) -> same_answers_at (A:=A) (classifier (V:=V) p pp lp cl) (Sp M sz dt) (Sp M' sz dt).
  Proof.
    intros p pp lp cl M M' H1 H2 H3. unfold classifier, reads. split; [|split]; cbn [o_predict o_proba o_log_proba].
    - intros g E. injection E as <-. cbn [fst as_num]. rewrite H1. reflexivity.
    - intros g E. destruct pp as [f|]; [|discriminate]. injection E as <-. cbn [fst as_num]. apply H2. reflexivity.
    - intros g E. destruct lp as [f|]; [|discriminate]. injection E as <-. cbn [fst as_num]. apply H3. reflexivity.
  Qed.

  Lemma obj_sps : forall e : est A L V, trees_fitted e -> tree_model e -> no_subsets e -> forall M M', sparse_sides (tests e) M M' ->
    same_answers_at (obj_of veq vnum U e) (Sp M sz dt) (Sp M' sz dt).
  Proof.
    fix IH 1. intros e F W S M M' H.
    destruct e; cbn [tree_model] in W; cbn [no_subsets] in S; try (destruct W; fail).
    - cbn [obj_of trees_fitted] in *. pose proof (leaves_sps t M M' F H) as E.
      apply sps_classifier; [|intros f Q; injection Q as <-..].
      + unfold tree_predict. rewrite E. reflexivity.
      + unfold tree_predict_proba. rewrite E. reflexivity.
      + unfold tree_predict_log_proba, tree_predict_proba. rewrite E. reflexivity.
    - cbn [obj_of trees_fitted] in *. split; [|split; discriminate]. intros g E. injection E as <-. cbn [fst as_num].
      rewrite (reg_sps t M M' F H). reflexivity.
    - cbn [obj_of].
      set (b := {| b_members := _; b_feats := feats; b_classes := classes |}).
      assert (P : bagging_predict_proba b (Sp M sz dt) = bagging_predict_proba b (Sp M' sz dt)).
      { apply bagging_sps. intro i. unfold member_proba, get_feats. subst b. cbn [b_members b_feats].
        destruct F as [F N]. destruct S as [-> S].
        { revert i H. clear N. induction members as [|m ms IHm]; intros i H; [destruct i; reflexivity|].
          destruct F as [Fm F]. destruct W as [Wm W]. destruct S as [Sm S]. destruct i as [|i].
          + unfold lnth. cbn [nth_error map bind feat_slice]. apply sps_proba_of. apply (IH m Fm Wm Sm M M'). eapply sps_weaken; [|exact H].
            intros j h Hj. cbn [tests]. left. exact Hj.
          + apply (IHm F W S i). eapply sps_weaken; [|exact H]. intros j h Hj. cbn [tests]. right. exact Hj. } }
      apply sps_classifier; [|intros f Q; injection Q as <-..].
      + unfold bagging_predict. rewrite P. reflexivity.
      + exact P.
      + unfold bagging_predict_log_proba. rewrite P. reflexivity.
    - cbn [obj_of].
      set (g := {| gb_estimators := trees; gb_init := _; gb_lr := lr; gb_nfeat := nfeat; gb_loss := ls; gb_classes := classes |}).
      assert (P : gb_raw_predict g (Sp M sz dt) = gb_raw_predict g (Sp M' sz dt)).
      { rewrite !gb_sps. reflexivity. }
      apply sps_classifier; [|intros f Q; injection Q as <-..].
      + unfold gb_predict, gb_predict_proba. rewrite P. reflexivity.
      + unfold gb_predict_proba. rewrite P. reflexivity.
      + unfold gb_predict_log_proba, gb_predict_proba. rewrite P. reflexivity.
    - cbn [obj_of]. assert (E : xgb_predict_proba g (Sp M sz dt) = xgb_predict_proba g (Sp M' sz dt)) by (rewrite !xgb_sps; reflexivity). apply sps_classifier; [|intros f Q; injection Q as <-|discriminate].
      + unfold xgb_predict. rewrite E. reflexivity.
      + exact E.
    - cbn [obj_of]. pose proof (sps_size _ _ _ H) as EN.
      split; [|split]; intros g E; injection E as <-; cbn [fst as_sized].
      + unfold dummy_predict. rewrite EN. reflexivity.
      + unfold dummy_predict_proba. rewrite EN. reflexivity.
      + unfold dummy_predict_log_proba, dummy_predict_proba. rewrite EN. reflexivity.
  Qed.

End SparseSides.
