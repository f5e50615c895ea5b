(** Tree models only see on which side of their thresholds the cells lie. *)
From Coq Require Import String Lia.
From Verif Require Import Model.Py Model.Arith Model.Utils Model.Base Model.Hash Model.DictVec
  Model.Text Model.Tree Model.Ensemble Model.Xgb Model.Linear Model.NaiveBayes
  Model.Dummy Model.Preprocessing Model.Encoders Model.Impute Model.Pipeline Model.Est.
From Verif Require Import Spec.Trees Spec.Unused Spec.Sides Proofs.Lib Proofs.Laws Proofs.Tree Proofs.Unused.
Local Open Scope nat_scope.

Section Sides.
  Context {A : arith} {L V : Type} (veq : V -> V -> bool) (vnum : A -> V) (U : textlib).

  Lemma sides_agree : forall u c (M M' : list (list A)), same_sides u c M M' -> agree_on (fun _ => False) c M M'.
  Proof. intros u c M M' H. unfold same_sides in H. unfold agree_on. induction H as [|r r' M M' (X & Y & _) G IH]; constructor; auto. split; [|split]; auto. intros j []. Qed.
  Lemma sides_weaken : forall (u w : nat -> A -> Prop) c (M M' : list (list A)), (forall j h, w j h -> u j h) -> same_sides u c M M' -> same_sides w c M M'.
  Proof. intros u w c M M' H G. unfold same_sides in *. induction G as [|r r' M M' (X & Y & Z) G IH]; constructor; auto. split; [|split]; auto. intros j h x x' Hw. apply Z. auto. Qed.

  (** ** Trees *)
  Lemma descend_sides : forall (t : tree A L) (r r' : list A), fitted t -> length r = length r' ->
    (forall j h x x', tree_tests t j h -> nth_error r j = Some x -> nth_error r' j = Some x' -> leb x h = leb x' h) ->
    forall fuel nd, nd < length (t_left t) -> descend t (Ls r) fuel (Z.of_nat nd) = descend t (Ls r') fuel (Z.of_nat nd).
  Proof.
    intros t r r' (H1 & HR & HF & HT & HV & HN) HL HU. induction fuel as [|n IH]; intros nd Hnd; [reflexivity|]. cbn [descend].
    destruct (HN nd Hnd) as [[EL ER]|(l & k & f & EL & ER & EF & Bl & Bk & NE)].
    - rewrite !lget_nn, EL, ER. cbn [bind]. reflexivity.
    - rewrite !lget_nn, EL, ER. cbn [bind]. destruct (_ =? _)%Z; [reflexivity|].
      unfold split_value. rewrite !lget_nn, EF. cbn [bind]. cbn [item_get]. rewrite !lget_nn.
      destruct (nth_error r f) as [x|] eqn:Er; destruct (nth_error r' f) as [x'|] eqn:Er'; cbn [bind]; [| | |reflexivity].
      + destruct (nth_error (t_thr t) nd) as [h|] eqn:Eh; cbn [bind]; [|reflexivity].
        rewrite (HU f h x x'); auto. 2:{ exists nd, (Z.of_nat l), (Z.of_nat k). repeat split; auto. intro Q. apply NE. lia. }
        destruct (leb x' h); apply IH; lia.
      + exfalso. apply nth_error_None in Er'. assert (f < length r) by (apply nth_error_Some; congruence). lia.
      + exfalso. apply nth_error_None in Er. assert (f < length r') by (apply nth_error_Some; congruence). lia.
  Qed.
  Lemma leaf_sides : forall (t : tree A L) (r r' : list A), fitted t -> length r = length r' ->
    (forall j h x x', tree_tests t j h -> nth_error r j = Some x -> nth_error r' j = Some x' -> leb x h = leb x' h) ->
    get_leaf_node t (Ls r) = get_leaf_node t (Ls r').
  Proof. intros t r r' F HL HU. unfold get_leaf_node. apply (descend_sides t r r' F HL HU _ 0). destruct F; lia. Qed.
  Lemma leaves_sides : forall (t : tree A L) c M M', fitted t -> same_sides (tree_tests t) c M M' -> leaves t (ll M) = leaves t (ll M').
  Proof.
    intros t c M M' F H. unfold leaves.
    assert (E : mapM (get_leaf_node t) (map Ls M) = mapM (get_leaf_node t) (map Ls M')).
    { rewrite !mapM_map. induction H as [|r r' M M' (X & Y & Z) G IH]; [reflexivity|]. cbn [mapM]. rewrite IH.
      rewrite (leaf_sides t r r' F) by (auto; congruence). reflexivity. }
    destruct H as [|r r' M M' (X & Y & Z) G]; [reflexivity|]. exact E.
  Qed.
  Lemma reg_sides : forall (t : tree A L) c M M', fitted t -> same_sides (tree_tests t) c M M' -> reg_predict t (ll M) = reg_predict t (ll M').
  Proof. intros t c M M' F H. unfold reg_predict. rewrite (leaves_sides t c M M' F H). reflexivity. Qed.

  (** ** Ensembles *)
  Lemma slice_sides : forall f u c (M M' : list (list A)), Forall (fun z => 0 <= z)%Z f ->
    same_sides (fun j h => exists k, nth_error f k = Some (Z.of_nat j) /\ u k h) c M M' ->
    (exists e, feat_slice (ll M) (Some f) = Err e /\ feat_slice (ll M') (Some f) = Err e) \/
    (exists N N', feat_slice (ll M) (Some f) = Ok (ll N) /\ feat_slice (ll M') (Some f) = Ok (ll N') /\ same_sides u (length f) N N').
  Proof.
    intros f u c M M' NN H. unfold feat_slice. cbn [ll items bind]. rewrite !mapM_map. cbn [bind].
    assert (D : forall r r' : list A, length r = c -> length r' = c ->
      (forall j h x x', (exists k, nth_error f k = Some (Z.of_nat j) /\ u k h) -> nth_error r j = Some x -> nth_error r' j = Some x' -> leb x h = leb x' h) ->
      (mapM (item_get (Ls r)) f = Err IndexError /\ mapM (item_get (Ls r')) f = Err IndexError) \/
      exists n n', mapM (item_get (Ls r)) f = Ok n /\ mapM (item_get (Ls r')) f = Ok n' /\ length n = length f /\ length n' = length f /\
        forall k h x x', u k h -> nth_error n k = Some x -> nth_error n' k = Some x' -> leb x h = leb x' h).
    { intros r r' X Y. clear H. revert u. induction NN as [|z f Hz NN IH]; intros u Z.
      - right. exists [], []. repeat split; auto. intros [|k] h x x' _ Q; discriminate.
      - destruct (Z_of_nat_complete z Hz) as [j ->]. cbn [mapM item_get]. rewrite !lget_nn.
        destruct (nth_error r j) as [x|] eqn:Er.
        + assert (j < c) by (rewrite <- X; apply nth_error_Some; congruence).
          destruct (nth_error r' j) as [x'|] eqn:Er'; [|apply nth_error_None in Er'; lia]. cbn [bind].
          destruct (IH (fun k => u (S k))) as [[E E']|(n & n' & E & E' & K & K' & Q)].
          * intros i h y y' (k & Hk & Uk). apply Z. exists (S k). auto.
          * left. rewrite E, E'. auto.
          * right. rewrite E, E'. cbn [bind]. exists (x :: n), (x' :: n'). repeat split; cbn; auto.
            intros [|k] h y y' Uk; [|apply Q; exact Uk]. cbn. intros J J'. injection J as <-. injection J' as <-. apply (Z j h); auto. exists 0. auto.
        + assert (c <= j) by (rewrite <- X; apply nth_error_None; exact Er).
          destruct (nth_error r' j) as [x'|] eqn:Er'; [assert (j < length r') by (apply nth_error_Some; congruence); lia|]. left. auto. }
    cut ((exists e, mapM (fun r => mapM (item_get (Ls r)) f) M = Err e /\ mapM (fun r => mapM (item_get (Ls r)) f) M' = Err e) \/
         (exists N N', mapM (fun r => mapM (item_get (Ls r)) f) M = Ok N /\ mapM (fun r => mapM (item_get (Ls r)) f) M' = Ok N' /\ same_sides u (length f) N N')).
    { intros [(e & E & E')|(N & N' & E & E' & G)]; [left|right]; rewrite E, E'; cbn [bind]; eauto. }
    induction H as [|r r' M M' (X & Y & Z) G IH].
    - right. exists [], []. repeat split. constructor.
    - cbn [mapM]. destruct (D r r' X Y Z) as [[E E']|(n & n' & E & E' & K & K' & Q)]; rewrite E, E'; [left; exists IndexError; auto|].
      destruct IH as [(e & I1 & I2)|(N & N' & I1 & I2 & G')]; [left; exists e; rewrite I1, I2; auto|].
      right. exists (n :: N), (n' :: N'). rewrite I1, I2. repeat split. constructor; auto.
  Qed.

  Lemma gb_sides : forall (g : gb A L) c M M', Forall (Forall fitted) (gb_estimators g) ->
    same_sides (fun j h => exists row t, In row (gb_estimators g) /\ In t row /\ tree_tests t j h) c M M' ->
    (forall i, gb_init g = Some i -> i (ll M) = i (ll M')) ->
    gb_raw_predict g (ll M) = gb_raw_predict g (ll M').
  Proof.
    intros g c M M' F H I. unfold gb_raw_predict.
    assert (ES := agree_shape _ _ _ _ (sides_agree _ _ _ _ H)). apply bind_on.
    { unfold gb_raw_init. destruct M as [|r M]; [inversion H; subst; reflexivity|]. destruct M' as [|r' M']; [inversion H|].
      cbn [ll map check_array bind]. change (Arr (Ls r :: map Ls M)) with (ll (r :: M)). change (Arr (Ls r' :: map Ls M')) with (ll (r' :: M')).
      unfold shape1. rewrite ES. apply bind_on; [reflexivity|]. intros w _. apply bind_on; [reflexivity|]. intros _ _.
      destruct (gb_init g) as [i|]; [|reflexivity]. unfold get_init_raw. rewrite (I i eq_refl). reflexivity. }
    intros init _. apply bind_on; [reflexivity|]. intros e0 _. apply bind_on; [|reflexivity].
    apply mapM_ext. intros k _. unfold shape0. rewrite ES. apply bind_on; [reflexivity|]. intros n _. unfold gb_column.
    apply foldM_on. intros col ix _. apply bind_on; [reflexivity|]. intros row Er. apply bind_on; [reflexivity|]. intros t Et.
    apply lnth_In in Er. apply lnth_In in Et. rewrite (reg_sides t c M M'); [reflexivity| |].
    - rewrite Forall_forall in F. specialize (F row Er). rewrite Forall_forall in F. auto.
    - eapply sides_weaken; [|exact H]. intros j h Hj. exists row, t. auto.
  Qed.

  Lemma xgb_sides : forall (g : xgb A L) c M M',
    Forall (fun row => match row with One t => fitted t | Many l => Forall fitted l end) (xg_estimators g) ->
    same_sides (tests (V:=V) (EXgb g)) c M M' -> xgb_predict_proba g (ll M) = xgb_predict_proba g (ll M').
  Proof.
    intros g c M M' F H. rewrite Forall_forall in F. unfold xgb_predict_proba.
    assert (EL := agree_len _ _ _ _ (sides_agree _ _ _ _ H)).
    destruct M as [|r M]; [inversion H; subst; reflexivity|]. destruct M' as [|r' M']; [inversion H|].
    cbn [ll map check_array bind]. change (Arr (Ls r :: map Ls M)) with (ll (r :: M)). change (Arr (Ls r' :: map Ls M')) with (ll (r' :: M')).
    assert (EN : len (ll (r :: M)) = len (ll (r' :: M'))). { unfold len, ll. cbn. rewrite !map_length. cbn in EL. injection EL as ->. reflexivity. }
    assert (ES : xgb_scores g (ll (r :: M)) = xgb_scores g (ll (r' :: M'))).
    { unfold xgb_scores. apply mapM_ext. intros cls _. rewrite EN. apply bind_on; [reflexivity|]. intros n _. apply foldM_on. intros acc e _.
      apply bind_on; [reflexivity|]. intros row Er. apply bind_on; [reflexivity|]. intros t Et. apply lget_In in Er. destruct row as [|l]; [discriminate|].
      apply lget_In in Et. rewrite (reg_sides t c (r :: M) (r' :: M')); [reflexivity| |].
      - specialize (F _ Er). cbn in F. rewrite Forall_forall in F. auto.
      - eapply sides_weaken; [|exact H]. intros j h Hj. exists (Many l). eauto. }
    assert (EB : xgb_binary_scores g (ll (r :: M)) = xgb_binary_scores g (ll (r' :: M'))).
    { unfold xgb_binary_scores. rewrite EN. apply bind_on; [reflexivity|]. intros n _. apply foldM_on. intros acc row Er. destruct row as [t|l]; [|reflexivity].
      rewrite (reg_sides t c (r :: M) (r' :: M')); [reflexivity| |].
      - exact (F _ Er).
      - eapply sides_weaken; [|exact H]. intros j h Hj. exists (One t). eauto. }
    destruct (str_eqb _ _).
    - rewrite ES, EN. reflexivity.
    - destruct (str_eqb _ _); [|reflexivity]. rewrite EB. reflexivity.
  Qed.

  (** ** Objects *)
  Lemma obj_sides : forall e : est A L V, trees_fitted e -> tree_model e -> forall c M M', same_sides (tests e) c M M' ->
    same_answers (obj_of veq vnum U e) M M'.
  Proof.
    fix IH 1. intros e F W c M M' H.
    destruct e; cbn [tree_model] in W; try (destruct W; fail).
    - cbn [obj_of trees_fitted] in *. pose proof (leaves_sides t c M M' F H) as E.
      apply same_classifier; [|intros f Q; injection Q as <-..].
      + unfold tree_predict. rewrite E. reflexivity.
      + unfold tree_predict_proba. rewrite E. reflexivity.
      + unfold tree_predict_log_proba, tree_predict_proba. rewrite E. reflexivity.
    - cbn [obj_of trees_fitted] in *. split; [|split; discriminate]. intros g E. injection E as <-. cbn [fst as_num].
      rewrite (reg_sides t c M M' F H). reflexivity.
    - cbn [obj_of].
      set (b := {| b_members := _; b_feats := feats; b_classes := classes |}).
      assert (P : bagging_predict_proba b (ll M) = bagging_predict_proba b (ll M')).
      { apply bagging_agree. intro i. unfold member_proba, get_feats. subst b. cbn [b_members b_feats].
        destruct F as [F N]. destruct feats as [fs|].
        - revert fs N i H. induction members as [|m ms IHm]; intros fs N i H; [destruct i; reflexivity|].
          destruct F as [Fm F]. destruct W as [Wm W]. destruct fs as [|f fs].
          + destruct (lnth _ i); [|reflexivity]. cbn [bind]. destruct i; reflexivity.
          + apply Forall_cons_iff in N. destruct N as [Nf N]. destruct i as [|i].
            * cbn [lnth nth_error map bind]. 
              destruct (slice_sides f (tests m) c M M' Nf) as [(e & E & E')|(K & K' & E & E' & G)].
              -- eapply sides_weaken; [|exact H]. intros j h Hj. cbn [tests]. left. exact Hj.
              -- unfold lnth. cbn [nth_error bind]. rewrite E, E'. reflexivity.
              -- unfold lnth. cbn [nth_error bind]. rewrite E, E'. cbn [bind]. apply same_proba_of. exact (IH m Fm Wm _ K K' G).
            * apply (IHm F W fs N i). eapply sides_weaken; [|exact H]. intros j h Hj. cbn [tests]. right. exact Hj.
        - revert i H. clear N. induction members as [|m ms IHm]; intros i H; [destruct i; reflexivity|].
          destruct F as [Fm F]. destruct W as [Wm W]. destruct i as [|i].
          + unfold lnth. cbn [nth_error map bind feat_slice]. apply same_proba_of. apply (IH m Fm Wm c M M'). eapply sides_weaken; [|exact H].
            intros j h Hj. cbn [tests]. left. exact Hj.
          + apply (IHm F W i). eapply sides_weaken; [|exact H]. intros j h Hj. cbn [tests]. right. exact Hj. }
      apply same_classifier; [|intros f Q; injection Q as <-..].
      + unfold bagging_predict. rewrite P. reflexivity.
      + exact P.
      + unfold bagging_predict_log_proba. rewrite P. reflexivity.
    - cbn [obj_of].
      set (g := {| gb_estimators := trees; gb_init := _; gb_lr := lr; gb_nfeat := nfeat; gb_loss := ls; gb_classes := classes |}).
      assert (P : gb_raw_predict g (ll M) = gb_raw_predict g (ll M')).
      { destruct F as [F Fi]. apply (gb_sides g c); [exact F| |].
        - eapply sides_weaken; [|exact H]. intros j h Hj. cbn [tests]. left. exact Hj.
        - subst g. cbn [gb_init]. destruct init as [i|]; [|discriminate]. cbn [option_map]. intros p E. injection E as <-.
          apply same_proba_of. apply (IH i Fi W c M M'). eapply sides_weaken; [|exact H]. intros j h Hj. cbn [tests]. right. exact Hj. }
      apply same_classifier; [|intros f Q; injection Q as <-..].
      + unfold gb_predict, gb_predict_proba. rewrite P. reflexivity.
      + unfold gb_predict_proba. rewrite P. reflexivity.
      + unfold gb_predict_log_proba, gb_predict_proba. rewrite P. reflexivity.
    - cbn [obj_of]. pose proof (xgb_sides g c M M' F H) as E. apply same_classifier; [|intros f Q; injection Q as <-|discriminate].
      + unfold xgb_predict. rewrite E. reflexivity.
      + exact E.
    - cbn [obj_of]. pose proof (agree_len _ _ _ _ (sides_agree _ _ _ _ H)) as EL.
      assert (EN : len (ll M) = len (ll M')). { unfold len, ll. cbn. rewrite !map_length, EL. reflexivity. }
      split; [|split]; intros g E; injection E as <-; cbn [fst as_sized].
      + unfold dummy_predict. rewrite EN. reflexivity.
      + unfold dummy_predict_proba. rewrite EN. reflexivity.
      + unfold dummy_predict_log_proba, dummy_predict_proba. rewrite EN. reflexivity.
  Qed.

End Sides.
