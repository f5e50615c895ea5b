(** One result per row, for every converted estimator. *)
From Coq Require Import String Lia.
From Verif Require Import Model.Py Model.Arith Model.Utils Model.Base Model.Hash Model.DictVec
  Model.Text Model.Tree Model.Ensemble Model.Xgb Model.Linear Model.NaiveBayes
  Model.Dummy Model.Preprocessing Model.Encoders Model.Impute Model.Pipeline Model.Est.
From Verif Require Import Spec.Pipeline Spec.Est Spec.Api Proofs.Lib Proofs.Pipeline Proofs.Est.

Ltac bx E a Ea := apply bind_ok in E; destruct E as (a & Ea & E).
Ltac len_tac :=
  repeat match goal with
  | E : mapM _ _ = Ok ?r |- context [length ?r] => rewrite (mapM_length _ _ _ E)
  end.

Section Lists.
  Context {A : arith}.
  Lemma zip_len : forall S T W (f : S -> T -> W) l m n, length l = n -> length m = n -> length (zip_with f l m) = n.
  Proof. intros. rewrite zip_with_length. lia. Qed.
  Lemma zipstar_rows : forall T (M : list (list T)) n, M <> [] -> Forall (fun r => length r = n) M -> length (zipstar M) = n.
  Proof.
    intros T M n H F. induction F as [|r M Hr F IH]; [congruence|]. destruct M as [|r' M]; [cbn; rewrite map_length; auto|].
    cbn [zipstar]. apply zip_len; auto. apply IH. discriminate.
  Qed.
  Lemma zipstar_cols : forall T (M : list (list T)), M <> [] -> Forall (fun c => length c = length M) (zipstar M).
  Proof.
    intros T M H. induction M as [|r M IH]; [congruence|]. destruct M as [|r' M].
    - cbn [zipstar]. rewrite Forall_map. apply Forall_forall. reflexivity.
    - assert (F := IH ltac:(discriminate)). change (zipstar (r :: r' :: M)) with (zip_with cons r (zipstar (r' :: M))).
      clear IH H. change (length (r :: r' :: M)) with (S (length (r' :: M))). revert F. generalize (length (r' :: M)). generalize (zipstar (r' :: M)). intros Z k F. revert r.
      induction F as [|c Z Hc F IHF]; intros [|x r]; cbn [zip_with]; constructor; auto. cbn [length]. lia.
  Qed.
  Lemma ravel_rows : forall (M : list (list A)) l, M <> [] -> ravel (ll M) = Ok l -> length l = length M.
  Proof.
    intros M l H E. unfold ravel in E. cbn [issparse ll] in E. apply bind_ok in E. destruct E as (Z & E & E').
    unfold transpose in E. cbn [issparse ll items bind] in E. apply bind_ok in E. destruct E as (M' & E & E''). injection E'' as <-.
    assert (M' = M) as ->. { rewrite mapM_map in E. cbn [iter_item] in E. rewrite (mapM_Ok (fun x => x)), map_id in E. congruence. }
    apply lnth_ok, nth_error_In in E'. assert (F := zipstar_cols _ M H). rewrite Forall_forall in F. auto.
  Qed.
End Lists.

Section Rows.
  Context {A : arith} {L V : Type} (veq : V -> V -> bool) (vnum : A -> V) (U : textlib).

  Definition arows {T} (Y : arr T) (n : nat) : Prop :=
    match Y with Arr l => length l = n | Sp r _ _ => length r = n | _ => False end.
  Lemma arows_items : forall T (Y : arr T) n l, arows Y n -> items Y = Ok l -> length l = n.
  Proof. intros T [l'|r sz dt| |] n l H E; try contradiction; injection E as <-; [exact H|rewrite map_length; exact H]. Qed.
  Lemma arows_check : forall T (Y Y' : arr T) h n, 1 <= n -> arows Y n -> check_array Y h = Ok Y' -> Y' = Y.
  Proof.
    intros T [[|x l]|r sz dt| |] Y' h n Hn H E; cbn in *; try contradiction; try lia; try congruence. destruct h; congruence.
  Qed.
  Ltac chk E Hn HY := let H := fresh in pose proof (arows_check _ _ _ _ _ Hn HY E) as H; subst.
  Lemma arows_ll : forall T (M : list (list T)) n, arows (ll M) n <-> length M = n.
  Proof. intros. cbn. rewrite map_length. tauto. Qed.
  Lemma arows_sparse : forall T (r : list (dict Z T)) sz dt Y n, length r = n -> sparse_list r sz dt = Ok Y -> arows Y n.
  Proof. intros T [|x r] sz dt Y n H E; [discriminate|]. injection E as <-. exact H. Qed.

  (** A function on matrices: nothing for an object that is not a list, one
      result per row otherwise. *)
  Definition sized {T} (f : arr A -> res (list T)) : Prop :=
    (forall l, f NotList <> Ok l) /\ forall Y n l, 1 <= n -> arows Y n -> f Y = Ok l -> length l = n.
  Lemma sized_bind : forall S T (f : arr A -> res (list S)) (g : S -> res T), sized f -> sized (fun Y => l <- f Y ;; mapM g l).
  Proof.
    intros S T f g [H1 H2]. split.
    - intros l E. iv E. eapply H1; eauto.
    - intros Y n l Hn HY E. iv E. rewrite (mapM_length _ _ _ E0). eauto.
  Qed.
  Lemma sized_apply : forall T (f : arr A -> res (list (list A))) (g : A -> res T), sized f -> sized (fun Y => l <- f Y ;; apply_2d (ll l) g).
  Proof.
    intros T f g [H1 H2]. split.
    - intros l E. iv E. eapply H1; eauto.
    - intros Y n l Hn HY E. iv E. unfold apply_2d in E0. cbn [issparse ll items bind] in E0. rewrite (mapM_length _ _ _ E0), map_length. eauto.
  Qed.
  Lemma sized_leaves : forall t : tree A L, sized (leaves t).
  Proof.
    intro t. split; [discriminate|]. intros Y n l Hn HY E. unfold leaves in E. iv E. iv E0. chk E Hn HY.
    rewrite (mapM_length _ _ _ E1). eapply arows_items; eauto.
  Qed.
  Lemma sized_reg : forall t : tree A L, sized (reg_predict t).
  Proof. intro t. apply sized_bind. apply sized_leaves. Qed.
  Lemma sized_tree : forall t : tree A L, sized (tree_predict_proba t).
  Proof. intro t. apply sized_bind. apply sized_leaves. Qed.

  Lemma operate_rows : forall (M N R : list (list A)) f, operate_2d (ll M) (ll N) f = Ok R -> length R = length M.
  Proof.
    intros M N R f E. unfold operate_2d in E. cbn [issparse ll orb] in E. iv E. iv E0. iv E1. iv E2. iv E3. injection E2 as <-.
    rewrite (mapM_length _ _ _ E4). unfold range. rewrite seq_length, map_length. reflexivity.
  Qed.
  Lemma apply_rows_len : forall T (M : list (list A)) (f : A -> res T) R, apply_2d (ll M) f = Ok R -> length R = length M.
  Proof. intros T M f R E. unfold apply_2d in E. cbn [issparse ll items bind] in E. rewrite (mapM_length _ _ _ E). apply map_length. Qed.

  Lemma sized_bagging : forall b : bagging A L, Forall sized (b_members b) -> sized (bagging_predict_proba b).
  Proof.
    intros b H. rewrite Forall_forall in H.
    assert (HM : forall idx, (forall l, member_proba b NotList idx <> Ok l) /\ forall Y n l, 1 <= n -> arows Y n -> member_proba b Y idx = Ok l -> length l = n).
    { intro idx. split.
      - intros l E. unfold member_proba in E. iv E. apply lnth_ok, nth_error_In in E. iv E0. iv E1. unfold feat_slice in E1.
        destruct x0 as [fs|]; [discriminate|]. injection E1 as <-. eapply (proj1 (H _ E)); eauto.
      - intros Y n l Hn HY E. unfold member_proba in E. iv E. apply lnth_ok, nth_error_In in E. iv E0. iv E1. unfold feat_slice in E1.
        apply (proj2 (H _ E) x1); auto. destruct x0 as [fs|]; [|injection E1 as <-; auto]. iv E1. iv E3. injection E4 as <-.
        apply arows_ll. rewrite (mapM_length _ _ _ E3). eapply arows_items; eauto. }
    split.
    - intros l E. unfold bagging_predict_proba in E. iv E. eapply (proj1 (HM 0)); eauto.
    - intros Y n l Hn HY E. unfold bagging_predict_proba in E. iv E. iv E0. rewrite (apply_rows_len _ _ _ _ E1).
      apply (proj2 (HM 0) Y n) in E; auto. revert E E0. generalize (seq 1 (length (b_members b) - 1)). intro is. revert x. induction is as [|i is IH]; intros x Ex E0; cbn [foldM] in E0; [congruence|].
      iv E0. iv E0. apply operate_rows in E2. eapply IH; [|exact E]. congruence.
  Qed.

  Lemma column_rows : forall (g : gb A L) Y n k c, 1 <= n -> arows Y n -> gb_column g Y n k = Ok c -> length c = n.
  Proof.
    intros g Y n k c Hn HY E. unfold gb_column in E. revert E. generalize (range (length (gb_estimators g))). intro is.
    assert (H0 : length (rep (zero : A) n) = n) by (unfold rep; apply repeat_length). revert H0. generalize (rep (zero : A) n). induction is as [|i is IH]; intros col H0 E; cbn [foldM] in E; [congruence|].
    iv E. eapply IH; [|exact E0]. iv E. iv E1. iv E2. rewrite (mapM_length _ _ _ E3). unfold range. rewrite seq_length. eapply (proj2 (sized_reg x1)); eauto.
  Qed.
  Lemma init_binary_rows : forall f (p r : list (list A)), init_binary f p = Ok r -> length r = length p.
  Proof. intros f p r E. unfold init_binary in E. iv E. rewrite (mapM_length _ _ _ E0). apply (mapM_length _ _ _ E). Qed.
  Lemma binary_rows : forall f (raw p : list (list A)), raw <> [] -> binary_proba f raw = Ok p -> length p = length raw.
  Proof.
    intros f raw p N E. unfold binary_proba in E. iv E. iv E0. destruct x as [[|[| |]|]|]; try discriminate. apply ravel_rows in E0; [|auto].
    iv E1. unfold transpose in E2. cbn in E2. injection E2 as <-. apply mapM_length in E1. rewrite zip_with_length, !map_length. lia.
  Qed.
  Lemma to_proba_rows : forall ls (raw p : list (list A)), raw <> [] -> raw_to_proba ls raw = Ok p -> length p = length raw.
  Proof.
    intros [c| |] raw p N E; cbn [raw_to_proba] in E; try (eapply binary_rows; eauto; fail).
    iv E. iv E0. iv E1. rewrite (mapM_length _ _ _ E2). unfold range. apply seq_length.
  Qed.
  Lemma sized_gb : forall g : gb A L, (forall f, gb_init g = Some f -> sized f) -> sized (gb_predict_proba g).
  Proof.
    intros g H. split; [discriminate|]. intros Y n l Hn HY E. unfold gb_predict_proba in E. iv E. unfold gb_raw_predict in E.
    iv E. iv E1. iv E2. iv E3. apply operate_rows in E4.
    assert (HI : length x0 = n).
    { unfold gb_raw_init in E. iv E. chk E Hn HY. iv E5. iv E6.
      destruct (gb_init g) as [f|]; [|discriminate]. unfold get_init_raw in E7. iv E7. apply (proj2 (H f eq_refl) Y n) in E7; auto.
      destruct (gb_loss g); [rewrite (apply_rows_len _ _ _ _ E8); auto|..]; rewrite (init_binary_rows _ _ _ E8); auto. }
    assert (N : x <> []) by (destruct x; [cbn in E4; lia|discriminate]). apply to_proba_rows in E0; auto. congruence.
  Qed.

  Lemma sized_xgb : forall g : xgb A L, sized (xgb_predict_proba g).
  Proof.
    intro g. split; [discriminate|]. intros Y n l Hn HY E. unfold xgb_predict_proba in E. iv E. chk E Hn HY.
    destruct (str_eqb _ _).
    - iv E0. iv E1. rewrite (mapM_length _ _ _ E2). unfold range. rewrite seq_length. unfold len in E1. iv E1. injection E3 as <-. eapply arows_items; eauto.
    - destruct (str_eqb _ _); [|discriminate]. iv E0. iv E1. injection E2 as <-. rewrite map_length, (mapM_length _ _ _ E1). clear E1 x0.
      unfold xgb_binary_scores in E0. iv E0. unfold len in E0. iv E0. injection E2 as <-. assert (Hl := arows_items _ _ _ _ HY E0).
      assert (H0 : length (rep (zero : A) (length x1)) = n) by (unfold rep; rewrite repeat_length; auto). revert H0 E1. generalize (rep (zero : A) (length x1)).
      generalize (xg_estimators g). clear E E0. intro es. induction es as [|e es IH]; intros col H0 E; cbn [foldM] in E; [congruence|].
      iv E. eapply IH; [|exact E0]. iv E. injection E1 as <-. apply zip_len; auto. destruct e as [t|]; [|discriminate]. eapply (proj2 (sized_reg t)); eauto.
  Qed.

  Lemma decision_rows : forall (c : linear A L) Y n s, 1 <= n -> arows Y n -> decision_function c Y = Ok s ->
    match s with D1 l => length l = n | D2 M => length M = n end.
  Proof.
    intros c Y n s Hn HY E. unfold decision_function in E. iv E. chk E Hn HY. iv E0. iv E1. iv E2. iv E3. iv E4. iv E5.
    assert (HL : length x3 = n) by (rewrite (mapM_length _ _ _ E4); eapply arows_items; eauto).
    assert (N : x3 <> []) by (destruct x3; [cbn in HL; lia|discriminate]).
    destruct x4 as [[|[| |]|]|]; try (injection E6 as <-; exact HL). iv E6. injection E7 as <-. rewrite <- HL. apply ravel_rows; auto.
  Qed.
  Lemma decision_none : forall (c : linear A L) s, decision_function c NotList <> Ok s.
  Proof. discriminate. Qed.
  Lemma sized_linear : forall c : linear A L, sized (linear_predict c) /\ sized (predict_proba_lr c) /\ sized (logistic_predict_proba c) /\ sized (sgd_predict_proba_inner c).
  Proof.
    intro c. assert (HP : sized (predict_proba_lr c)).
    { split; [discriminate|]. intros Y n l Hn HY E. unfold predict_proba_lr in E. iv E. apply (decision_rows c Y n x Hn HY) in E. destruct x as [d|M].
      - rewrite (mapM_length _ _ _ E0). auto.
      - iv E0. rewrite (mapM_length _ _ _ E1), (mapM_length _ _ _ E0). auto. }
    split; [|split; [exact HP|split]].
    - split; [discriminate|]. intros Y n l Hn HY E. unfold linear_predict in E. iv E. apply (decision_rows c Y n x Hn HY) in E. destruct x as [d|M]; rewrite (mapM_length _ _ _ E0); auto.
    - split.
      + intros l E. unfold logistic_predict_proba in E. iv E. destruct x; [eapply (proj1 HP); eauto|discriminate].
      + intros Y n l Hn HY E. unfold logistic_predict_proba in E. iv E. destruct x; [eapply (proj2 HP); eauto|].
        iv E0. apply (decision_rows c Y n x Hn HY) in E0. destruct x as [d|M]; rewrite (mapM_length _ _ _ E1); auto.
    - split.
      + intros l E. unfold sgd_predict_proba_inner in E. iv E. destruct (str_eqb _ _); [eapply (proj1 HP); eauto|discriminate].
      + intros Y n l Hn HY E. unfold sgd_predict_proba_inner in E. iv E. destruct (str_eqb _ _); [eapply (proj2 HP); eauto|discriminate].
  Qed.

  Lemma gaussian_rows : forall (g : gaussian A L) X J, g_classes g <> [] -> gaussian_jll g X = Ok J -> length J = length X.
  Proof.
    intros g X J N E. unfold gaussian_jll in E. iv E. unfold transpose in E0. cbn [issparse ll items bind] in E0. iv E0. injection E1 as <-.
    assert (x0 = x) as ->. { rewrite mapM_map in E0. cbn [iter_item] in E0. rewrite (mapM_Ok (fun x => x)), map_id in E0. congruence. }
    apply zipstar_rows.
    - assert (HL := mapM_length _ _ _ E). intros ->. cbn in HL. unfold range in HL. rewrite seq_length in HL. destruct (g_classes g); [congruence|discriminate].
    - apply Forall_forall. intros r Hr. destruct (mapM_in _ _ _ _ E Hr) as (i & _ & Ei). iv Ei. iv E1. iv E2. iv E3. iv E4. injection E5 as <-. rewrite !map_length. eapply mapM_length; eauto.
  Qed.
  Lemma sized_jll : forall m : nb A L, has_class (V:=V) (ENb m) -> sized (fun Y => Y' <- check_array Y HError ;; jll m Y').
  Proof.
    intros m H. split; [discriminate|]. intros Y n l Hn HY E. iv E. chk E Hn HY.
    destruct m as [g|d|d]; cbn [jll] in E0.
    - cbn in H. destruct (g_classes g) as [|c cs] eqn:Eg; [congruence|]. destruct (items Y) as [its|] eqn:Ei.
      + apply gaussian_rows in E0; [|congruence]. rewrite E0. eapply arows_items; eauto.
      + iv E0. iv E1. iv E2. iv E3. discriminate.
    - iv E0. rewrite (mapM_length _ _ _ E1). eapply arows_items; eauto.
    - iv E0. unfold complement_jll in E1. iv E1. assert (HL : length x0 = n) by (rewrite (mapM_length _ _ _ E1); eapply arows_items; eauto).
      destruct (_ =? 1); [rewrite (mapM_length _ _ _ E2); auto|congruence].
  Qed.
  Lemma sized_nb : forall m : nb A L, has_class (V:=V) (ENb m) -> sized (nb_predict m) /\ sized (nb_predict_proba m) /\ sized (nb_predict_log_proba m).
  Proof.
    intros m H. assert (HJ := sized_jll m H). assert (HL : sized (nb_predict_log_proba m)).
    { split; [discriminate|]. intros Y n l Hn HY E. unfold nb_predict_log_proba in E. iv E. iv E0. iv E1. injection E2 as <-.
      assert (EJ : length x0 = n) by (apply (proj2 HJ Y n x0); auto; rewrite E; auto). apply zip_len; auto. rewrite (mapM_length _ _ _ E1). auto. }
    split; [|split; [|exact HL]].
    - split; [discriminate|]. intros Y n l Hn HY E. unfold nb_predict in E. iv E. iv E0. rewrite (mapM_length _ _ _ E1). apply (proj2 HJ Y n x0); auto. rewrite E. auto.
    - unfold nb_predict_proba. apply sized_bind. exact HL.
  Qed.

  (** Objects. *)
  Definition counted (o : obj A L V) : Prop := forall X n, batch X n ->
    (forall f, o_transform o = Some f -> batch (t_after (f X)) n /\ forall Y, t_value (f X) = Ok Y -> batch Y n) /\
    (forall f p, o_predict o = Some f -> fst (f X) = Ok p -> n_preds p = n) /\
    (forall f P, o_proba o = Some f -> fst (f X) = Ok P -> length P = n) /\
    (forall f P, o_log_proba o = Some f -> fst (f X) = Ok P -> length P = n).
  Lemma batch_num : forall (X : data A V) n, batch X n -> as_num X = NotList \/ arows (as_num X) n.
  Proof. intros [[| | |]|[|]|[|]|[| | |]] n [_ H]; cbn in *; auto; contradiction. Qed.
  Lemma batch_arr : forall (Y : arr A) n, 1 <= n -> arows Y n -> batch (V:=V) (DNum Y) n.
  Proof. intros [| | |] n Hn H; try contradiction; split; auto. Qed.
  Lemma arows_batch : forall (Y : arr A) n, batch (V:=V) (DNum Y) n -> arows Y n.
  Proof. intros [| | |] n [_ H]; exact H. Qed.
  Lemma sized_data : forall T (f : arr A -> res (list T)) X n l, sized f -> batch X n -> f (as_num (V:=V) X) = Ok l -> length l = n.
  Proof.
    intros T f X n l [H1 H2] HX E. destruct (batch_num X n HX) as [E'|E']; [rewrite E' in E; destruct (H1 _ E)|].
    eapply H2; [apply HX|exact E'|exact E].
  Qed.
  Lemma classifier_counted : forall p pp lp cl, sized p -> (forall f, pp = Some f -> sized f) -> (forall f, lp = Some f -> sized f) ->
    counted (classifier (V:=V) p pp lp cl).
  Proof.
    intros p pp lp cl Hp Hpp Hlp X n HX. unfold classifier, reads. cbn [o_transform o_predict o_proba o_log_proba]. split; [discriminate|]. split; [|split].
    - intros f q E. injection E as <-. cbn [fst]. intro E. iv E. injection E0 as <-. cbn. eapply sized_data; eauto.
    - intros f q E. destruct pp as [g|]; [|discriminate]. injection E as <-. cbn [fst]. intro E. eapply sized_data; eauto.
    - intros f q E. destruct lp as [g|]; [|discriminate]. injection E as <-. cbn [fst]. intro E. eapply sized_data; eauto.
  Qed.
  Lemma transformer_counted : forall t : data A V -> tres A V,
    (forall X n, batch X n -> batch (t_after (t X)) n /\ forall Y, Pipeline.t_value (t X) = Ok Y -> batch Y n) -> counted (transformer (L:=L) (Some t)).
  Proof.
    intros t H X n HX. unfold transformer. cbn [o_transform o_predict o_proba o_log_proba]. split; [|split; [|split]; discriminate].
    intros f E. injection E as <-. auto.
  Qed.
  Lemma fresh_counted : forall f : data A V -> res (arr A), (forall X n Y, batch X n -> f X = Ok Y -> arows Y n) -> counted (transformer (L:=L) (fresh f)).
  Proof.
    intros f H. unfold fresh. apply transformer_counted. intros X n HX. cbn [t_after]. split; auto. intros Y E. unfold Pipeline.t_value in E. cbn [t_out t_after] in E.
    iv E. iv E. injection E1 as <-. injection E0 as <-. apply batch_arr; [apply HX|eauto].
  Qed.
  (** transformers on matrices *)
  Definition sized_t (f : arr A -> res (arr A)) : Prop :=
    (forall Y, f NotList <> Ok Y) /\ forall X n Y, 1 <= n -> arows X n -> f X = Ok Y -> arows Y n.
  Lemma num_counted : forall f, sized_t f -> counted (transformer (L:=L) (fresh (fun X : data A V => f (as_num X)))).
  Proof.
    intros f [H1 H2]. apply fresh_counted. intros X n Y HX E. destruct (batch_num X n HX) as [E'|E']; [rewrite E' in E; destruct (H1 _ E)|]. eapply H2; eauto. apply HX.
  Qed.
  Lemma sized_rows_out : forall f : arr A -> res (list (list A)), sized f -> sized_t (fun X => rows_out (f X)).
  Proof.
    intros f [H1 H2]. split.
    - intros Y E. unfold rows_out in E. iv E. eapply H1; eauto.
    - intros X n Y Hn HX E. unfold rows_out in E. iv E. injection E0 as <-. apply arows_ll. eauto.
  Qed.

  Lemma scale_rows_rows : forall X n ns (Y : arr A), arows X n -> scale_rows X ns = Ok Y -> arows Y n.
  Proof.
    intros X n ns Y HX E. destruct X as [l|rows sz dt| |]; try contradiction; cbn [scale_rows items bind] in E; iv E.
    - injection E0 as <-. apply arows_ll. rewrite (mapM_length _ _ _ E). unfold range. rewrite seq_length. exact HX.
    - eapply arows_sparse; [|exact E0]. rewrite (mapM_length _ _ _ E). unfold range. rewrite seq_length. exact HX.
  Qed.
  Lemma normalize_rows : forall X n nm (Y : arr A), 1 <= n -> arows X n -> normalize_pure X nm 1 = Ok Y -> arows Y n.
  Proof.
    intros X n nm Y Hn HX E. unfold normalize_pure in E. iv E. injection E0 as <-. unfold normalize_full in E. cbn [Z.eqb orb andb negb guard bind] in E.
    iv E. iv E0. iv E1. chk E1 Hn HX. iv E2. iv E3. iv E4. injection E5 as <-. cbn [fst]. eapply scale_rows_rows; eauto.
  Qed.
  Lemma sized_normalizer : forall nm, sized_t (normalizer_transform nm).
  Proof.
    intro nm. split; [discriminate|]. intros X n Y Hn HX E. unfold normalizer_transform in E. iv E. chk E Hn HX. eapply normalize_rows; eauto.
  Qed.
  Lemma mapM_ll : forall S (g : S -> res (list A)) l (Y : arr A) n, length l = n -> (M <- mapM g l ;; Ok (ll M)) = Ok Y -> arows Y n.
  Proof. intros S g l Y n H E. iv E. injection E0 as <-. apply arows_ll. rewrite (mapM_length _ _ _ E). exact H. Qed.
  Lemma sized_std : forall s : std_scaler A, sized_t (std_transform s).
  Proof.
    intro s. split; [discriminate|]. intros X n Y Hn HX E. unfold std_transform in E. iv E. chk E Hn HX.
    destruct X as [l|rows sz dt| |]; try contradiction.
    - iv E0. assert (HY : arows x n). { destruct (ss_mean_on s); [|injection E0 as <-; auto]. iv E0. eapply mapM_ll; [|exact E2]. eapply arows_items; eauto. }
      destruct (ss_std_on s); [|injection E1 as <-; auto]. iv E1. eapply mapM_ll; [|exact E2]. eapply arows_items; eauto.
    - iv E0. destruct (ss_scale s); [|injection E1 as <-; auto]. iv E1. eapply arows_sparse; [|exact E2]. rewrite (mapM_length _ _ _ E1). exact HX.
  Qed.
  Lemma sized_minmax : forall s : minmax A, sized_t (minmax_transform s).
  Proof.
    intro s. split; [discriminate|]. intros X n Y Hn HX E. unfold minmax_transform in E. destruct (issparse X); [discriminate|]. iv E. chk E Hn HX.
    iv E0. eapply mapM_ll; [|exact E1]. eapply arows_items; eauto.
  Qed.
  Lemma sized_maxabs : forall s : option (list A), sized_t (maxabs_transform s).
  Proof.
    intro s. split; [discriminate|]. intros X n Y Hn HX E. unfold maxabs_transform in E. iv E. chk E Hn HX.
    destruct X as [l|rows sz dt| |]; try contradiction.
    - iv E0. eapply mapM_ll; [|exact E1]. eapply arows_items; eauto.
    - iv E0. eapply arows_sparse; [|exact E1]. rewrite (mapM_length _ _ _ E0). exact HX.
  Qed.
  Lemma sized_indicator : forall t : indicator A, sized (indicator_transform t).
  Proof.
    intro t. split; [discriminate|]. intros X n l Hn HX E. unfold indicator_transform in E. bx E X1 E1. chk E1 Hn HX. bx E w Ew. bx E u Eu. bx E mf Em. destruct mf as [mask feats].
    assert (HM : length mask = n).
    { unfold missing_info in Em. bx Em mk E2. assert (HL : length mk = n).
      { unfold apply_2d in E2. destruct (issparse X); [discriminate|]. bx E2 its Ei. rewrite (mapM_length _ _ _ E2). eapply arows_items; eauto. }
      destruct (str_eqb _ _); [injection Em as <- _; auto|]. destruct (str_eqb _ _); [|discriminate]. bx Em w' Ew'. injection Em as <- _. auto. }
    destruct (str_eqb _ _); [|injection E as <-; rewrite map_length; auto]. bx E u' Eu'. destruct (_ <? _)%Z; injection E as <-; rewrite map_length; auto.
  Qed.
  Lemma sized_imputer : forall s : imputer A, sized (imputer_transform s).
  Proof.
    intro s. split; [discriminate|]. intros X n l Hn HX E. unfold imputer_transform in E. bx E X1 E1. chk E1 Hn HX.
    bx E ind Ed. bx E w Ew. bx E u Eu. bx E its Ei. assert (HL := arows_items _ _ _ _ HX Ei). cbv zeta in E. bx E rows Er. bx E imp Em.
    assert (HI : length imp = n).
    { rewrite (mapM_length _ _ _ Em). destruct (removed s); [congruence|]. rewrite (mapM_length _ _ _ Er). auto. }
    destruct ind as [mk|]; [|congruence]. rewrite (mapM_length _ _ _ E). unfold range. rewrite seq_length. auto.
  Qed.

  Lemma batch_cats : forall (X : data A V) n, batch X n -> as_cats vnum X = NotList \/ arows (as_cats vnum X) n.
  Proof. intros [[| | |]|[|]|[|]|[| | |]] n [_ H]; cbn in *; rewrite ?map_length; auto; contradiction. Qed.
  Lemma enc_rows : forall (e : encoder V) X n w r, 1 <= n -> arows X n -> enc_transform veq e X w = Ok r -> length (fst r) = n.
  Proof.
    intros e X n w r Hn HX E. unfold enc_transform in E. iv E. destruct x as [[cols n'] m]. 
    assert (n' = n) as ->.
    { unfold check_X in E. bx E X1 E1. chk E1 Hn HX. bx E sh Es. destruct sh as [|k m']; [discriminate|].
      bx E its Ei. bx E cs Ec. injection E as _ <- _. unfold shape in Es. bx Es l El. assert (HL := arows_items _ _ _ _ HX El). destruct l as [|y l]; [discriminate|].
      destruct y as [t|r'|d]; [discriminate| |]; (assert (EK : k = Z.of_nat n) by (rewrite <- HL; destruct X; congruence); rewrite EK; apply Nat2Z.id). }
    bx E0 u Eu. clear E. assert (H0 : length (fst (rep (rep 0 m) n, rep (rep true m) n)) = n) by (cbn; unfold rep; apply repeat_length).
    revert H0 E0. generalize (rep (rep 0 m) n, rep (rep true m) n). generalize (range m). intro is. induction is as [|i is IH]; intros st H0 E; cbn [foldM] in E; [congruence|].
    bx E st' Es. eapply IH; [|exact E]. destruct st as [xint mask]. bx Es a1 Ea1. bx Es a2 Ea2. bx Es a3 Ea3. destruct a3 as [xi' mask']. bx Es a4 Ea4. bx Es a5 Ea5. injection Es as <-. cbn [fst].
    unfold set_column in Ea5. rewrite (mapM_length _ _ _ Ea5). unfold range. apply seq_length.
  Qed.
  Lemma ordinal_counted : forall e : encoder V, counted (obj_of veq vnum U (EOrdinal (A:=A) (L:=L) e)).
  Proof.
    intro e. cbn [obj_of]. apply fresh_counted. intros X n Y HX E. unfold rows_out in E. iv E. injection E0 as <-. apply arows_ll.
    unfold ordinal_transform in E. iv E. destruct x0 as [xi mk]. rewrite (mapM_length _ _ _ E0).
    destruct (batch_cats X n HX) as [EX|EX]; [rewrite EX in E; discriminate|]. change xi with (fst (xi, mk)). eapply enc_rows; eauto. apply HX.
  Qed.
  Lemma todense_rows : forall (X : arr A) n D, arows X n -> todense X = Ok D -> length D = n.
  Proof. intros [|r sz dt| |] n D H E; try discriminate. cbn [todense] in E. rewrite (mapM_length _ _ _ E). exact H. Qed.
  Lemma onehot_counted : forall e : encoder V, counted (obj_of veq vnum U (EOneHot (A:=A) (L:=L) e)).
  Proof.
    intro e. cbn [obj_of]. apply fresh_counted. intros X n Y HX E. unfold onehot_transform in E. iv E. iv E0. destruct x0 as [xi mk].
    assert (HL : length xi = n).
    { destruct (batch_cats X n HX) as [EX|EX]; [rewrite EX in E0; discriminate|]. change xi with (fst (xi, mk)). eapply enc_rows; eauto. apply HX. }
    iv E1. cbv zeta in E2. iv E2. iv E3. iv E4. assert (HO : arows x3 n).
    { eapply arows_sparse; [|exact E4]. rewrite (mapM_length _ _ _ E3). unfold range. rewrite seq_length. exact HL. }
    iv E5. destruct x4; [injection E6 as <-; auto|]. iv E6. injection E7 as <-. apply arows_ll. eapply todense_rows; eauto.
  Qed.

  Lemma dictvec_counted : forall d : dictvec, counted (obj_of veq vnum U (EDictVec (A:=A) (L:=L) d)).
  Proof.
    intro d. cbn [obj_of]. apply fresh_counted. intros X n Y HX E. destruct X as [| |[m|l]|]; try discriminate; [destruct HX as [_ []]|].
    unfold dv_transform in E. iv E. iv E0. assert (HO : arows x0 n).
    { eapply arows_sparse; [|exact E0]. rewrite (mapM_length _ _ _ E). apply HX. }
    destruct (dv_sparse d); [injection E1 as <-; auto|]. iv E1. injection E2 as <-. apply arows_ll. eapply todense_rows; eauto.
  Qed.
  Lemma batch_docs : forall (X : data A V) n, batch X n -> (exists l, as_docs X = RawDocs l /\ length l = n) \/ as_docs X = RawDocs [DocOther].
  Proof. intros [[| | |]|[|]|[|]|[| | |]] n [_ H]; cbn in *; eauto; contradiction. Qed.
  Lemma binarize_rows : forall (X Y : arr A) n, arows X n -> binarize X = Ok Y -> arows Y n.
  Proof. intros X Y n H E. unfold binarize in E. iv E. iv E0. injection E1 as <-. cbn. rewrite (mapM_length _ _ _ E0). eapply arows_items; eauto. Qed.
  Lemma count_rows : forall c (X : data A V) n (Y : arr A), batch X n -> count_transform U c (as_docs X) = Ok Y -> arows Y n.
  Proof.
    intros c X n Y HX E. destruct (batch_docs X n HX) as [(l & EX & HL)|EX]; rewrite EX in E; cbn [count_transform] in E; unfold count_vocab in E; iv E; iv E.
    - iv E1. assert (HO : arows x n). { eapply arows_sparse; [|exact E2]. rewrite (mapM_length _ _ _ E1). exact HL. }
      destruct (cv_binary c); [eapply binarize_rows; eauto|congruence].
    - destruct (analyzer_other _ _ _ E) as [y Ey]. cbn [mapM] in E1. rewrite Ey in E1. discriminate.
  Qed.
  Lemma hashvec_rows : forall h (X : data A V) n (Y : arr A), batch X n -> hashvec_transform U h (as_docs X) = Ok Y -> arows Y n.
  Proof.
    intros h X n Y HX E. destruct (batch_docs X n HX) as [(l & EX & HL)|EX]; rewrite EX in E; cbn [hashvec_transform] in E; iv E; iv E0; unfold hasher_transform_string, hashing_transform in E0; iv E0; iv E2; iv E3.
    - assert (HO : arows x0 n). { eapply arows_sparse; [|exact E4]. rewrite (mapM_length _ _ _ E3), !map_length. exact HL. }
      iv E1. assert (HO' : arows x4 n) by (destruct (hv_binary h); [eapply binarize_rows; eauto|congruence]).
      destruct (hv_norm h); [eapply normalize_rows; eauto; apply HX|congruence].
    - destruct (analyzer_other _ _ _ E) as [y Ey]. cbn [map mapM] in E3. rewrite Ey in E3. discriminate.
  Qed.
  Lemma idf_rows_len : forall idf (l : list (item A)), length (snd (idf_rows idf l)) = length l.
  Proof.
    intros idf l. induction l as [|x l IH]; [reflexivity|]. destruct x as [t|r|d]; cbn [idf_rows]; try reflexivity.
    destruct (idf_row idf [] d) as [[d'|e] d'']; [|reflexivity]. destruct (idf_rows idf l) as [r t'] eqn:E. cbn [snd length] in *. lia.
  Qed.
  Lemma with_items_rows : forall (X : arr A) l n, arows X n -> length l = n -> arows (with_items X l) n.
  Proof. intros [l0|r sz dt| |] l n H HL; try contradiction; cbn; rewrite ?map_length; auto. Qed.
  Lemma tfidf_rows : forall t (X : arr A) n, 1 <= n -> arows X n ->
    arows (snd (tfidf_transform t X)) n /\ forall Y, fst (tfidf_transform t X) = Ok Y -> arows Y n.
  Proof.
    intros t X n Hn HX. unfold tfidf_transform. destruct (X1 <- check_array X HAllow ;; _) as [[X1 m]|e] eqn:E.
    - assert (X1 = X) as ->. { iv E. chk E Hn HX. iv E0. destruct x; [discriminate|]. injection E1 as <- _. reflexivity. }
      destruct (tf_sublinear t); [split; [auto|discriminate]|].
      assert (KK : forall r (X2 : arr A), arows X2 n -> arows (snd match r with Err e => (Err e, X2) | Ok _ => (match tf_norm t with Some nm => normalize_pure X2 nm 1 | None => Ok X2 end, X2) end) n /\
        forall Y, fst match r : res unit with Err e => (Err e, X2) | Ok _ => (match tf_norm t with Some nm => normalize_pure X2 nm 1 | None => Ok X2 end, X2) end = Ok Y -> arows Y n).
      { intros [u|e] X2 H2; cbn [fst snd]; (split; [auto|]); [|discriminate]. intros Y EY. destruct (tf_norm t); [eapply normalize_rows; eauto|congruence]. }
      destruct (tf_use_idf t); [|exact (KK (Ok tt) X HX)]. destruct (match m with Some m => _ | None => _ end); [|exact (KK (Err NameError) X HX)].
      destruct (items X) as [l|e'] eqn:Ei; [|exact (KK (Err e') X HX)]. assert (HL := idf_rows_len (tf_idf t) l). destruct (idf_rows (tf_idf t) l) as [r l']. refine (KK r (with_items X l') _).
      apply with_items_rows; auto. cbn [snd] in HL. rewrite HL. eapply arows_items; eauto.
    - split; [auto|discriminate].
  Qed.
  Lemma tfidf_counted : forall t, counted (obj_of veq vnum U (ETfidf (A:=A) (L:=L) t)).
  Proof.
    intro t. cbn [obj_of]. apply transformer_counted. intros X n HX. unfold tfidf_method. destruct X as [X| | |]; try (cbn; split; [auto|discriminate]).
    assert (HA := arows_batch _ _ HX). destruct (tfidf_rows t X n (proj1 HX) HA) as [H1 H2]. destruct (tfidf_transform t X) as [r X']. cbn [fst snd] in *. cbn [t_after]. split; [apply batch_arr; auto; apply HX|].
    intros Y E. unfold Pipeline.t_value in E. cbn [t_out t_after] in E. iv E. iv E. injection E1 as <-. injection E0 as <-. destruct (tf_norm t); apply batch_arr; auto; apply HX.
  Qed.

  (** Pipelines and unions. *)
  Lemma applied_batch : forall (os : list (obj A L V)) X Z n, Forall counted os -> batch X n -> applied os X Z -> batch Z n.
  Proof.
    intros os X Z n H HX HA. induction HA as [X|o rest f X Y Z Ef Ev HA IH]; auto. inversion H; subst. apply IH; auto. eapply (proj2 (proj1 (H2 X n HX) f Ef)); eauto.
  Qed.
  Lemma run_after : forall os cur X n, Forall counted os -> batch (A:=A) (V:=V) X n -> match cur with Some Y => batch Y n | None => True end ->
    batch (t_after (run_steps (L:=L) os cur X)) n.
  Proof.
    intros os. induction os as [|o os IH]; intros cur X n H HX HC; [exact HX|]. inversion H; subst. cbn [run_steps].
    assert (KT : forall Z, batch Z n -> batch (t_after (call_transform o Z)) n /\ forall Y, t_value (call_transform o Z) = Ok Y -> batch Y n).
    { intros Z HZ. unfold call_transform. destruct (o_transform o) as [f|] eqn:Ef; [apply (proj1 (H2 Z n HZ) f Ef)|]. cbn. split; [auto|discriminate]. }
    destruct cur as [Xt|].
    - destruct (KT Xt HC) as [K1 K2]. unfold t_value in K2. destruct (t_out (call_transform o Xt)) as [[Y|]|e]; cbn [t_after]; auto; apply IH; auto.
    - destruct (KT X HX) as [K1 K2]. unfold t_value in K2. destruct (t_out (call_transform o X)) as [[Y|]|e]; cbn [t_after]; auto; apply IH; auto.
  Qed.
  Lemma pipeline_counted : forall steps : list (pystr * obj A L V), Forall (fun ne => counted (snd ne)) steps -> counted (pipeline steps).
  Proof.
    intros steps H X n HX. destruct (snoc_cases _ steps) as [->|(l & [nm o] & ->)]; [repeat split; intros; discriminate|].
    rewrite Forall_app in H. destruct H as [Hl Ho]. apply Forall_inv in Ho. cbn [snd] in Ho. assert (HS : Forall counted (map snd l)) by (rewrite Forall_map; auto).
    assert (HM : forall T (get : obj A L V -> option (data A V -> res T * data A V)) (sz : T -> nat),
      (forall Z f p, batch Z n -> get o = Some f -> fst (f Z) = Ok p -> sz p = n) ->
      forall f p, pipe_method get (l ++ [(nm, o)]) = Some f -> fst (f X) = Ok p -> sz p = n).
    { intros T get sz HG f p E Ev. destruct (get o) as [g|] eqn:Eg.
      - destruct (pipe_method_some get l nm o g Eg) as (g' & E' & Hg). rewrite E in E'. injection E' as <-. apply (proj1 (Hg X)) in Ev. destruct Ev as (Z & HZ & Ev).
        eapply HG; [|reflexivity|exact Ev]. eapply applied_batch; eauto.
      - apply (pipe_method_none get l nm o) in Eg. congruence. }
    split; [|split; [|split]].
    - intros f E. unfold pipeline in E. cbn [o_transform] in E. rewrite last_step_app in E. destruct (o_transform o) as [g|] eqn:Eg; [|discriminate]. injection E as <-.
      assert (HS' : Forall counted (map snd (l ++ [(nm, o)]))) by (rewrite map_app, Forall_app; split; [auto|constructor; [auto|constructor]]).
      split; [apply run_after; auto|]. intros Y Ev. apply (run_ok _ None) in Ev. eapply applied_batch; eauto.
    - apply (HM _ o_predict n_preds). intros Z f p HZ. apply (proj1 (proj2 (Ho Z n HZ))).
    - apply (HM _ o_proba (@length _)). intros Z f p HZ. apply (proj1 (proj2 (proj2 (Ho Z n HZ)))).
    - apply (HM _ o_log_proba (@length _)). intros Z f p HZ. apply (proj2 (proj2 (proj2 (Ho Z n HZ)))).
  Qed.
  Lemma batch_len : forall (X : data A V) n k, batch X n -> data_len X = Ok k -> k = n.
  Proof.
    intros [[| | |]|[|]|[|]|[| | |]] n k [_ H] E; cbn in *; try contradiction; injection E as <-; rewrite ?map_length; auto.
  Qed.
  Lemma all_batch : forall (ms : list (obj A L V * option A)) X n, Forall (fun ow => counted (fst ow)) ms -> batch X n -> batch (snd (transform_all ms X)) n.
  Proof.
    intros ms X n H. revert X. induction H as [|[o w] ms Ho H IH]; intros X HX; [exact HX|]. cbn [transform_all]. destruct (transform_one o w X) as [r X'] eqn:E.
    assert (HX' : batch X' n).
    { assert (X' = t_after (call_transform o X)) as -> by (change X' with (snd (r, X')); rewrite <- E; reflexivity). unfold call_transform.
      destruct (o_transform o) as [f|] eqn:Ef; [exact (proj1 (proj1 (Ho X n HX) f Ef))|exact HX]. }
    destruct r as [y|e]; [|exact HX']. specialize (IH X' HX'). destruct (transform_all ms X') as [[ys|e] X'']; exact IH.
  Qed.
  Lemma check_data_batch : forall (X X1 : data A V) n, batch X n -> check_data X = Ok X1 -> X1 = X.
  Proof.
    intros [X|[|l]|[|l]|X] X1 n HX E; cbn [check_data] in E.
    - iv E. injection E0 as <-. apply (arows_check _ X x HAllow n (proj1 HX)) in E; [congruence|]. apply (arows_batch _ _ HX).
    - discriminate.
    - destruct l; [destruct HX as [H1 H2]; cbn in H2; lia|congruence].
    - discriminate.
    - destruct l; [destruct HX as [H1 H2]; cbn in H2; lia|congruence].
    - iv E. assert (arows X n) by (destruct HX as [_ HX]; destruct X; exact HX). apply (arows_check _ X x HAllow n (proj1 HX)) in E; [|auto]. subst. destruct X; try contradiction; congruence.
  Qed.
  Lemma union_counted : forall (ms : list (pystr * obj A L V)) w, Forall (fun ne => counted (snd ne)) ms -> counted (feature_union ms w).
  Proof.
    intros ms w H X n HX. split; [|split; [|split]; intros; discriminate]. intros f E. injection E as <-. unfold union_transform.
    destruct (check_data X) as [X1|e] eqn:EC; [|split; [exact HX|discriminate]]. apply (check_data_batch _ _ _ HX) in EC. subst X1.
    assert (HW : Forall (fun ow => counted (fst ow)) (weighted ms w)) by (unfold weighted; rewrite Forall_map; exact H).
    assert (HB := all_batch _ X n HW HX). destruct (transform_all (weighted ms w) X) as [r X2]. cbn [snd] in HB. cbn [t_after]. split.
    - destruct X as [[| | |]|[|]|[|]|[| | |]]; auto.
    - intros Y E. unfold Pipeline.t_value in E. cbn [t_out t_after] in E. iv E. injection E0 as <-. iv E. iv E0. injection E1 as <-. apply batch_arr; [apply HX|].
      destruct x0 as [|y ys].
      + iv E0. iv E1. iv E2. injection E3 as <-. apply arows_ll. unfold rep. rewrite repeat_length. eapply batch_len; eauto.
      + cbv zeta in E0. destruct (existsb issparse _).
        * unfold sparse_union in E0. iv E0. iv E1. iv E2. iv E3. iv E4. eapply arows_sparse; [|exact E5]. rewrite (mapM_length _ _ _ E4). unfold range. rewrite seq_length. eapply batch_len; eauto.
        * iv E0. unfold dense_union in E1. eapply mapM_ll; [|exact E1]. unfold range. rewrite seq_length. eapply batch_len; eauto.
  Qed.

  Lemma batch_sized : forall (X : data A V) n, batch X n -> arows (as_sized X) n.
  Proof. intros [[| | |]|[|]|[|]|[| | |]] n [_ H]; cbn in *; try contradiction; auto; unfold rep; rewrite repeat_length, ?map_length; auto. Qed.
  (** No method accepts an object that is not a list. *)
  Definition rejects (o : obj A L V) : Prop :=
    (forall f Y, o_transform o = Some f -> t_value (f (DNum NotList)) <> Ok Y) /\
    (forall f p, o_predict o = Some f -> fst (f (DNum NotList)) <> Ok p) /\
    (forall f P, o_proba o = Some f -> fst (f (DNum NotList)) <> Ok P) /\
    (forall f P, o_log_proba o = Some f -> fst (f (DNum NotList)) <> Ok P).
  Lemma classifier_rejects : forall p pp lp cl, sized p -> (forall f, pp = Some f -> sized f) -> (forall f, lp = Some f -> sized f) ->
    rejects (classifier (V:=V) p pp lp cl).
  Proof.
    intros p pp lp cl Hp Hpp Hlp. unfold rejects, classifier, reads. cbn [o_transform o_predict o_proba o_log_proba]. split; [discriminate|]. split; [|split].
    - intros f q E. injection E as <-. cbn [fst as_num]. intro E. bx E l El. eapply (proj1 Hp); eauto.
    - intros f q E. destruct pp as [g|]; [|discriminate]. injection E as <-. cbn [fst as_num]. eapply (proj1 (Hpp g eq_refl)); eauto.
    - intros f q E. destruct lp as [g|]; [|discriminate]. injection E as <-. cbn [fst as_num]. eapply (proj1 (Hlp g eq_refl)); eauto.
  Qed.
  Definition fine (o : obj A L V) : Prop := counted o /\ rejects o.
  Lemma classifier_fine : forall p pp lp cl, sized p -> (forall f, pp = Some f -> sized f) -> (forall f, lp = Some f -> sized f) ->
    fine (classifier (V:=V) p pp lp cl).
  Proof. intros. split; [apply classifier_counted|apply classifier_rejects]; auto. Qed.
  Lemma transformer_rejects : forall t : data A V -> tres A V, (forall Y, Pipeline.t_value (t (DNum NotList)) <> Ok Y) -> rejects (transformer (L:=L) (Some t)).
  Proof. intros t H. split; [|split; [|split]; discriminate]. intros f Y E. injection E as <-. apply H. Qed.
  Lemma fresh_rejects : forall f : data A V -> res (arr A), (forall Y, f (DNum NotList) <> Ok Y) -> rejects (transformer (L:=L) (fresh f)).
  Proof. intros f H. unfold fresh. apply transformer_rejects. intros Y E. unfold Pipeline.t_value in E. cbn [t_out] in E. bx E y Ey. bx Ey z Ez. eapply H; eauto. Qed.
  Lemma applied_rejects : forall o (os : list (obj A L V)) Z, rejects o -> ~ applied (o :: os) (DNum NotList) Z.
  Proof. intros o os Z H E. inversion E; subst. eapply (proj1 H); eauto. Qed.
  Lemma pipeline_rejects : forall steps : list (pystr * obj A L V), Forall (fun ne => rejects (snd ne)) steps -> rejects (pipeline steps).
  Proof.
    intros steps H. destruct (snoc_cases _ steps) as [->|(l & [nm o] & ->)]; [repeat split; intros; discriminate|].
    assert (HM : forall T (get : obj A L V -> option (data A V -> res T * data A V)),
      (forall f p, get o = Some f -> fst (f (DNum NotList)) <> Ok p) ->
      forall f p, pipe_method get (l ++ [(nm, o)]) = Some f -> fst (f (DNum NotList)) <> Ok p).
    { intros T get HG f p E Ev. destruct (get o) as [g|] eqn:Eg.
      - destruct (pipe_method_some get l nm o g Eg) as (g' & E' & Hg). rewrite E in E'. injection E' as <-. apply (proj1 (Hg _)) in Ev. destruct Ev as (Z & HZ & Ev).
        destruct l as [|[nm' o'] l]; [inversion HZ; subst; eapply HG; eauto|]. apply applied_rejects in HZ; auto. apply Forall_inv in H. exact H.
      - apply (pipe_method_none get l nm o) in Eg. congruence. }
    rewrite Forall_app in H. destruct H as [Hl Ho]. apply Forall_inv in Ho. destruct Ho as (H1 & H2 & H3 & H4). cbn [snd] in *.
    split; [|split; [|split]]; [|apply (HM _ o_predict); auto|apply (HM _ o_proba); auto|apply (HM _ o_log_proba); auto].
    intros f Y E Ev. unfold pipeline in E. cbn [o_transform] in E. rewrite last_step_app in E. destruct (o_transform o) as [g|] eqn:Eg; [|discriminate]. injection E as <-.
    apply (run_ok _ None) in Ev. destruct l as [|[nm' o'] l]; cbn [app map snd] in Ev; (apply applied_rejects in Ev; auto); [|apply Forall_inv in Hl; exact Hl].
    split; [|split; [|split]]; auto. intros f0 Y0 E0. rewrite Eg in E0. injection E0 as <-. apply (H1 g Y0 eq_refl).
  Qed.
  Lemma proba_of_sized : forall o : obj A L V, fine o -> sized (proba_of o).
  Proof.
    intros o [H HN]. unfold proba_of. destruct (o_proba o) as [f|] eqn:Ef; [|split; discriminate]. split; [intro l; apply (proj1 (proj2 (proj2 HN))); auto|].
    intros Y n l Hn HY E. eapply (proj1 (proj2 (proj2 (H (DNum Y) n (batch_arr _ _ Hn HY))))); eauto.
  Qed.

  Theorem est_fine : forall e : est A L V, (forall p, part e p -> has_class p) -> fine (obj_of veq vnum U e).
  Proof.
    apply (est_rec' (fun e => (forall p, part e p -> has_class p) -> fine (obj_of veq vnum U e))).
    - intros ms fs cl H HC. cbn [obj_of]. set (b := {| b_members := _ |}). rewrite Forall_forall in H.
      assert (HB : sized (bagging_predict_proba b)).
      { apply sized_bagging. unfold b. cbn [b_members]. rewrite Forall_map. apply Forall_forall. intros e He. apply proba_of_sized. apply H; auto. intros p Hp. apply HC. eapply part_bagging; eauto. }
      apply classifier_fine.
      + split.
        * intros l E. unfold bagging_predict in E. bx E P EP. eapply (proj1 HB); eauto.
        * intros Y n l Hn HY E. unfold bagging_predict in E. bx E P EP. bx E am Ea. rewrite (mapM_length _ _ _ E), (mapM_length _ _ _ Ea). eapply (proj2 HB); eauto.
      + intros f E. injection E as <-. exact HB.
      + intros f E. injection E as <-. apply sized_apply. exact HB.
    - intros ts init lr nf ls cl H HC. cbn [obj_of]. set (g := {| gb_estimators := _ |}).
      assert (HB : sized (gb_predict_proba g)).
      { apply sized_gb. unfold g. cbn [gb_init]. intros f E. destruct init as [i|]; [|discriminate]. injection E as <-. apply proba_of_sized. apply H. intros p Hp. apply HC. apply part_gb; auto. }
      apply classifier_fine; [apply sized_bind; exact HB| |].
      + intros f E. injection E as <-. exact HB.
      + intros f E. injection E as <-. apply sized_apply. exact HB.
    - intros steps H HC. cbn [obj_of]. rewrite Forall_forall in H. split; [apply pipeline_counted|apply pipeline_rejects]; rewrite Forall_map; apply Forall_forall; intros [nm e] Hin;
        apply (H _ Hin); intros p Hp; apply HC; eapply part_pipeline; eauto.
    - intros ms w H HC. cbn [obj_of]. rewrite Forall_forall in H. split; [apply union_counted|].
      + rewrite Forall_map; apply Forall_forall; intros [nm e] Hin; apply (H _ Hin); intros p Hp; apply HC; eapply part_union; eauto.
      + split; [|split; [|split]; discriminate]. intros f Y E. injection E as <-. discriminate.
    - intros e He HC. destruct e; try contradiction; cbn [obj_of].
      + apply classifier_fine.
        * split; [discriminate|]. intros Y n l Hn HY E. unfold tree_predict in E. bx E lv El. bx E ps Ep. rewrite (mapM_length _ _ _ E), (mapM_length _ _ _ Ep). eapply (proj2 (sized_leaves t)); eauto.
        * intros f E. injection E as <-. apply sized_tree.
        * intros f E. injection E as <-. apply sized_bind. apply sized_tree.
      + split.
        * intros X n HX. unfold reads. cbn [o_transform o_predict o_proba o_log_proba]. split; [discriminate|]. split; [|split; discriminate].
          intros f p E. injection E as <-. cbn [fst]. intro E. bx E l El. injection E as <-. cbn. eapply sized_data; eauto. apply sized_reg.
        * unfold rejects, reads. cbn [o_transform o_predict o_proba o_log_proba]. split; [discriminate|]. split; [|split; discriminate].
          intros f p E. injection E as <-. discriminate.
      + apply classifier_fine; [apply sized_bind; apply sized_xgb| |discriminate]. intros f E. injection E as <-. apply sized_xgb.
      + destruct (sized_linear c) as (H1 & H2 & H3 & H4). destruct k; apply classifier_fine; auto; try discriminate.
        * intros f E. injection E as <-. exact H3.
        * intros f E. injection E as <-. apply sized_bind. exact H3.
        * intros f E. destruct (is_ok _); [|discriminate]. injection E as <-. exact H4.
        * intros f E. destruct (is_ok _); [|discriminate]. injection E as <-. unfold sgd_predict_log_proba, sgd_predict_proba. split.
          -- intros l E. bx E u Eu. bx E P EP. bx EP u' Eu'. eapply (proj1 H4); eauto.
          -- intros Y n l Hn HY E. bx E u Eu. bx E P EP. bx EP u' Eu'. rewrite (mapM_length _ _ _ E). eapply (proj2 H4); eauto.
      + destruct (sized_nb m (HC _ (part_self _))) as (H1 & H2 & H3). apply classifier_fine; auto.
        * intros f E. injection E as <-. exact H2.
        * intros f E. injection E as <-. exact H3.
      + assert (HP : sized (dummy_predict_proba d)).
        { split; [discriminate|]. intros Y n l Hn HY E. unfold dummy_predict_proba in E. bx E k Ek. injection E as <-. unfold rep. rewrite repeat_length. unfold len in Ek. bx Ek its Ei. injection Ek as <-. eapply arows_items; eauto. }
        split.
        * intros X n HX. assert (HY := batch_sized X n HX). cbn [o_transform o_predict o_proba o_log_proba]. split; [discriminate|]. split; [|split].
          -- intros f p E. injection E as <-. cbn [fst]. intro E. bx E l El. injection E as <-. cbn. unfold dummy_predict in El. bx El i Ei. bx El k Ek. injection El as <-. unfold rep. rewrite repeat_length.
             unfold len in Ek. bx Ek its Eit. injection Ek as <-. eapply arows_items; eauto.
          -- intros f P E. injection E as <-. cbn [fst]. intro E. eapply (proj2 HP); eauto. apply HX.
          -- intros f P E. injection E as <-. cbn [fst]. intro E. eapply (proj2 (sized_apply _ _ safe_log HP)); eauto. apply HX.
        * unfold rejects. cbn [o_transform o_predict o_proba o_log_proba as_sized]. split; [discriminate|]. split; [|split]; intros f p E; injection E as <-; cbn [fst].
          -- intro E. bx E l El. unfold dummy_predict in El. bx El i Ei. discriminate.
          -- discriminate.
          -- discriminate.
      + split; [apply (num_counted _ (sized_normalizer norm))|apply fresh_rejects; apply (proj1 (sized_normalizer norm))].
      + split.
        * apply transformer_counted. intros X n HX. unfold std_method. cbn [t_after]. split; auto. intros Y E. unfold Pipeline.t_value in E. cbn [t_out t_after] in E. bx E y Ey. bx Ey z Ez. injection E as <-. injection Ey as <-.
          destruct (std_same s (as_num X)); [auto|]. apply batch_arr; [apply HX|]. destruct (batch_num X n HX) as [EX|EX]; [rewrite EX in Ez; destruct (proj1 (sized_std s) _ Ez)|]. eapply (proj2 (sized_std s)); eauto. apply HX.
        * apply transformer_rejects. intros Y E. unfold std_method, Pipeline.t_value in E. cbn [t_out as_num] in E. bx E y Ey. bx Ey z Ez. eapply (proj1 (sized_std s)); eauto.
      + split; [apply (num_counted _ (sized_minmax s))|apply fresh_rejects; apply (proj1 (sized_minmax s))].
      + split; [apply (num_counted _ (sized_maxabs scale))|apply fresh_rejects; apply (proj1 (sized_maxabs scale))].
      + split; [apply onehot_counted|]. apply fresh_rejects. intros Y E. unfold onehot_transform in E. bx E u Eu. discriminate.
      + split; [apply ordinal_counted|]. apply fresh_rejects. discriminate.
      + assert (H := sized_rows_out _ (sized_indicator t)). split; [apply (num_counted _ H)|apply fresh_rejects; apply (proj1 H)].
      + assert (H := sized_rows_out _ (sized_imputer s)). split; [apply (num_counted _ H)|apply fresh_rejects; apply (proj1 H)].
      + split; [apply dictvec_counted|]. apply fresh_rejects. discriminate.
      + split; [apply fresh_counted; apply count_rows|]. apply fresh_rejects. intros Y. destruct (count_nothing U c (DNum NotList : data A V)) as [x ->]; [unfold nothing; tauto|discriminate].
      + split; [apply tfidf_counted|]. apply transformer_rejects. discriminate.
      + split.
        * apply fresh_counted. intros X n Y HX E. unfold tfidf_vec_transform in E. bx E C EC. apply (count_rows c X n) in EC; auto. eapply (proj2 (tfidf_rows t C n (proj1 HX) EC)); eauto.
        * apply fresh_rejects. intros Y. unfold tfidf_vec_transform. destruct (count_nothing U c (DNum NotList : data A V)) as [x ->]; [unfold nothing; tauto|discriminate].
      + split; [apply fresh_counted; apply hashvec_rows|]. apply fresh_rejects. intros Y. destruct (hashvec_nothing U h (DNum NotList : data A V)) as [x ->]; [unfold nothing; tauto|discriminate].
  Qed.
End Rows.

(** C69 *)
Section Methods.
  Context {A : arith} {L V : Type} (veq : V -> V -> bool) (vnum : A -> V) (U : textlib).
  Notation ob := (obj_of veq vnum U).
  Definition own_methods (e : est A L V) : option (list method) :=
    match e with
    | ETree _ | EBagging _ _ _ | EGb _ _ _ _ _ _ | ELinear KLogistic _ | ENb _ | EDummy _ => Some [Predict; PredictProba; PredictLogProba]
    | EXgb _ => Some [Predict; PredictProba]
    | EReg _ | ELinear KPlain _ => Some [Predict]
    | ELinear KSgd _ | EPipeline _ => None
    | _ => Some [Transform]
    end.
  Lemma own_offers : forall e ms, own_methods e = Some ms -> forall m, offers (ob e) m <-> In m ms.
  Proof.
    intros e ms E m. destruct e; try discriminate; try (destruct k; try discriminate); injection E as <-; destruct m; cbn; split; intro H;
      try (exfalso; apply H; reflexivity); try discriminate; auto 6; repeat (destruct H as [H|H]; try discriminate H); contradiction.
  Qed.
End Methods.

(** C70 *)
Section Same.
  Context {A : arith} {L V : Type} (veq : V -> V -> bool) (vnum : A -> V) (U : textlib).
  Notation ob := (obj_of veq vnum U).
  Lemma run_some : forall (os : list (obj A L V)) c X, t_out (run_steps os (Some c) X) <> Ok None.
  Proof.
    induction os as [|o os IH]; intros c X; [discriminate|]. cbn [run_steps]. destruct (t_out (call_transform o c)) as [[y|]|e]; auto; discriminate.
  Qed.
  Lemma run_none : forall (os : list (obj A L V)) X, t_out (run_steps os None X) = Ok None ->
    Forall (fun o => exists f Z, o_transform o = Some f /\ t_out (f Z) = Ok None) os.
  Proof.
    induction os as [|o os IH]; intros X E; [constructor|]. cbn [run_steps] in E. destruct (t_out (call_transform o X)) as [[y|]|e] eqn:E1; [destruct (run_some _ _ _ E)| |discriminate].
    constructor; [|eapply IH; eauto]. unfold call_transform in E1. destruct (o_transform o) as [f|]; [|discriminate]. eauto.
  Qed.
  Lemma fresh_some : forall (f : data A V -> res (arr A)) g X, fresh f = Some g -> t_out (g X) <> Ok None.
  Proof. intros f g X E. injection E as <-. cbn [t_out]. destruct (f X); discriminate. Qed.
  Lemma same_passes : forall e : est A L V, forall f X, o_transform (ob e) = Some f -> t_out (f X) = Ok None -> passes_input e.
  Proof.
    apply (est_rec' (fun e => forall f X, o_transform (ob e) = Some f -> t_out (f X) = Ok None -> passes_input e)); try (intros; discriminate).
    - intros steps H f X E Et. constructor. intros nm e Hin. rewrite Forall_forall in H. cbn [obj_of] in E. unfold pipeline in E. cbn [o_transform] in E.
      destruct (last_step _) as [o|]; [|discriminate]. destruct (o_transform o); [|discriminate]. injection E as <-. apply run_none in Et.
      rewrite Forall_forall in Et. destruct (Et (ob e)) as (f & Z & Ef & EZ); [|apply (H _ Hin f Z Ef EZ)].
      rewrite map_map. cbn [snd]. apply in_map_iff. exists (nm, e). auto.
    - intros ms w H f X E Et. exfalso. cbn [obj_of feature_union o_transform] in E. injection E as <-. unfold union_transform in Et. destruct (check_data X); [|discriminate].
      destruct (transform_all _ _) as [r X2]. cbn [t_out] in Et. bx Et ys Ey. bx Et Y EY. discriminate.
    - intros e He f X E Et. destruct e; try contradiction; try (destruct k); try discriminate; cbn [obj_of transformer o_transform] in E; try (exfalso; eapply fresh_some; eauto; fail).
      + injection E as <-. unfold std_method in Et. cbn [t_out] in Et. bx Et Y EY. destruct (std_same s (as_num X)) eqn:ES; [|discriminate].
        constructor. destruct (as_num X) as [[|? ?]|? ? ?| |]; try discriminate; cbn [std_same] in ES; destruct (ss_mean_on s); auto; discriminate.
      + injection E as <-. unfold tfidf_method in Et. destruct X; try discriminate. destruct (tfidf_transform t X) as [r X']. cbn [t_out] in Et. bx Et Y EY. constructor. destruct (tf_norm t); [discriminate|auto].
  Qed.
  Lemma std_value : forall (s : std_scaler A) (X : arr A), Pipeline.t_value (std_method (V:=V) s (DNum X)) = (Y <- std_transform s X ;; Ok (DNum Y)).
  Proof.
    intros s X. unfold Pipeline.t_value, std_method. cbn [t_out t_after as_num]. destruct (std_transform s X) as [Y|e] eqn:E; cbn [bind]; [|reflexivity].
    destruct (std_same s X) eqn:ES; [|reflexivity]. f_equal. f_equal. unfold std_transform in E.
    destruct X as [[|x l]|r sz dt| |]; try discriminate; cbn [std_same] in ES; cbn [check_array bind] in E.
    - destruct (ss_mean_on s); [discriminate|]. destruct (ss_std_on s); [discriminate|]. cbn [bind] in E. congruence.
    - destruct (ss_mean_on s); [discriminate|]. cbn [guard negb bind] in E. destruct (ss_scale s); [discriminate|]. congruence.
  Qed.
  Lemma tfidf_value : forall (t : tfidf A) (X : arr A), Pipeline.t_value (tfidf_method (V:=V) t (DNum X)) = (Y <- fst (tfidf_transform t X) ;; Ok (DNum Y)).
  Proof.
    intros t X. unfold Pipeline.t_value, tfidf_method. destruct (tfidf_transform t X) as [r X'] eqn:E. cbn [t_out t_after fst]. destruct r as [Y|e]; cbn [bind]; [|reflexivity].
    destruct (tf_norm t) as [nm|] eqn:EN; [reflexivity|]. f_equal. f_equal. unfold tfidf_transform in E. rewrite EN in E.
    destruct (X1 <- check_array X HAllow ;; _) as [[X1 m]|e]; [|discriminate]. destruct (tf_sublinear t); [discriminate|].
    destruct (if tf_use_idf t then _ else _) as [[u|e] X2]; [|discriminate]. congruence.
  Qed.
End Same.

(** C68 *)
From Verif Require Import Spec.Matrix Proofs.Laws Proofs.Argmax Proofs.Api.
Section Pred.
  Context {A : arith} {L V : Type} (veq : V -> V -> bool) (vnum : A -> V) (U : textlib) (OK : ord_ok A).
  Notation ob := (obj_of veq vnum U).
  Definition picks (o : obj A L V) : Prop := forall f g cl X l, o_predict o = Some f -> o_proba o = Some g -> o_classes o = Some cl ->
    (fst (f X) = Ok (PLab l) <-> exists P, fst (g X) = Ok P /\ Forall2 (fun p y => exists i, best p i /\ nth_error cl i = Some y) P l).
  Lemma picks_leaf : forall e : est A L V, match e with EBagging _ _ _ | EGb _ _ _ _ _ _ | EXgb _ => True | _ => False end -> picks (ob e).
  Proof.
    intros e H f g cl X l Ef Eg Ec. 
    assert (KK : forall (pp : arr A -> res (list (list A))) (p : arr A -> res (list L)), (forall Y r, p Y = Ok r <-> exists P, pp Y = Ok P /\ mapM (fun a => i <- argmax a ;; lnth cl i) P = Ok r) ->
      forall Y, (l0 <- p Y ;; Ok (PLab (A:=A) l0)) = Ok (PLab l) <-> exists P, pp Y = Ok P /\ Forall2 (fun p y => exists i, best p i /\ nth_error cl i = Some y) P l).
    { intros pp p Hp Y. split.
      - intro E. bx E l0 E0. injection E as ->. apply Hp in E0. destruct E0 as (P & EP & E0). exists P. split; auto. apply (pick_ok cl OK). auto.
      - intros (P & EP & HP). apply (pick_ok cl OK) in HP. rewrite (proj2 (Hp Y l)); [reflexivity|]. eauto. }
    destruct e; try contradiction; cbn [obj_of classifier o_predict o_proba o_classes] in *; injection Ef as <-; injection Eg as <-; injection Ec as <-; cbn [fst]; apply KK; intros Y r.
    - unfold bagging_predict. rewrite bind_ok. cbn [b_classes]. split; intros (P & EP & E); exists P; (split; [exact EP|]); clear EP; revert r E.
      + induction P as [|p P IH]; intros r E; cbn [mapM] in *.
        * exact E.
        * bx E am Ea. bx Ea i Ei. bx Ea is Eis. injection Ea as <-. cbn [mapM] in E. bx E y Ey. bx E ys Eys. injection E as <-. rewrite Ei. cbn [bind]. rewrite Ey. cbn [bind]. rewrite (IH ys); [reflexivity|]. rewrite Eis. exact Eys.
      + induction P as [|p P IH]; intros r E; cbn [mapM] in *.
        * exact E.
        * bx E y Ey. bx Ey i Ei. bx E ys Eys. injection E as <-. apply IH in Eys. bx Eys is Eis. rewrite Ei. cbn [bind]. rewrite Eis. cbn [bind mapM]. rewrite Ey. cbn [bind]. rewrite Eys. reflexivity.
    - unfold gb_predict. rewrite bind_ok. reflexivity.
    - unfold xgb_predict. rewrite bind_ok. reflexivity.
  Qed.
  Lemma picks_ends : forall e z : est A L V, ends_in e z -> picks (ob z) -> picks (ob e).
  Proof.
    intros e z HE H f g cl X l Ef Eg Ec. destruct (ends_follow veq vnum U e z HE) as (os & H0 & H1 & H2 & _). rewrite Ef in H1. rewrite Eg in H2. rewrite H0 in Ec.
    destruct (o_predict (ob z)) as [f0|] eqn:Ef0; [|contradiction]. destruct (o_proba (ob z)) as [g0|] eqn:Eg0; [|contradiction]. cbn in H1, H2. rewrite H1. split.
    - intros (Z & HZ & E). apply (H f0 g0 cl Z l Ef0 Eg0 Ec) in E. destruct E as (P & E & HP). exists P. split; auto. apply H2. eauto.
    - intros (P & E & HP). apply H2 in E. destruct E as (Z & HZ & E). exists Z. split; auto. apply (H f0 g0 cl Z l Ef0 Eg0 Ec). eauto.
  Qed.
  Lemma dummy_picks : forall d, forall f g X l, o_predict (ob (EDummy (L:=L) d)) = Some f -> o_proba (ob (EDummy (L:=L) d)) = Some g ->
    fst (f X) = Ok (PIdx l) -> exists P, fst (g X) = Ok P /\ Forall2 best P l.
  Proof.
    intros d f g X l Ef Eg. cbn in Ef, Eg. injection Ef as <-. injection Eg as <-. cbn [fst]. intro E. bx E l0 E0. injection E as ->. unfold dummy_predict in E0. bx E0 i Ei. bx E0 n En. injection E0 as <-.
    unfold dummy_predict_proba. rewrite En. cbn [bind]. eexists. split; [reflexivity|]. apply (argmax_iff OK) in Ei. unfold rep. clear En. induction n; cbn [repeat]; constructor; auto.
  Qed.
  Lemma dummy_picks_ends : forall (e : est A L V) d, ends_in e (EDummy d) -> forall f g X l, o_predict (ob e) = Some f -> o_proba (ob e) = Some g ->
    fst (f X) = Ok (PIdx l) -> exists P, fst (g X) = Ok P /\ Forall2 best P l.
  Proof.
    intros e d HE f g X l Ef Eg E. destruct (ends_follow veq vnum U e _ HE) as (os & _ & H1 & H2 & _). rewrite Ef in H1. rewrite Eg in H2. cbn [obj_of o_predict o_proba follows] in H1, H2.
    apply H1 in E. destruct E as (Z & HZ & E). destruct (dummy_picks d _ _ Z l eq_refl eq_refl E) as (P & EP & HP). exists P. split; auto. apply H2. eauto.
  Qed.
End Pred.
