(** Columns no tree tests do not matter. *)
From Coq Require Import String Lia.
From Verif Require Import Model.Py Model.Arith Model.Utils Model.Base Model.Hash Model.DictVec
  Model.Text Model.Tree Model.Ensemble Model.Xgb Model.Linear Model.NaiveBayes
  Model.Dummy Model.Preprocessing Model.Encoders Model.Impute Model.Pipeline Model.Est.
From Verif Require Import Spec.Trees Spec.Unused Proofs.Lib Proofs.Laws Proofs.Tree.
Local Open Scope nat_scope.

Lemma bind_on : forall {S T} (r r' : res S) (k k' : S -> res T), r = r' -> (forall x, r = Ok x -> k x = k' x) -> bind r k = bind r' k'.
Proof. intros S T r r' k k' <- H. destruct r; cbn; auto. Qed.
Lemma foldM_on : forall {S T} (f g : S -> T -> res S) l a, (forall a x, In x l -> f a x = g a x) -> foldM f l a = foldM g l a.
Proof.
  intros S T f g l. induction l as [|x l IH]; intros a H; cbn [foldM]; [reflexivity|]. apply bind_on; [apply H; left; reflexivity|].
  intros b _. apply IH. intros c y Hy. apply H. right. exact Hy.
Qed.
Lemma lnth_In : forall {T} (l : list T) i x, lnth l i = Ok x -> In x l.
Proof. intros T l i x H. unfold lnth in H. destruct (nth_error l i) eqn:E; [|discriminate]. injection H as ->. apply nth_error_In in E. exact E. Qed.
Lemma lget_In : forall {T} (l : list T) i x, lget l i = Ok x -> In x l.
Proof. intros T l i x H. unfold lget in H. destruct (_ && _)%bool; [|discriminate]. apply lnth_In in H. exact H. Qed.
Lemma lget_nn : forall {T} (l : list T) j, lget l (Z.of_nat j) = match nth_error l j with Some x => Ok x | None => Err IndexError end.
Proof.
  intros T l j. unfold lget, lnth. destruct (Z.of_nat j <? 0)%Z eqn:E; [apply Z.ltb_lt in E; lia|].
  destruct (nth_error l j) eqn:N.
  - assert (j < length l) by (apply nth_error_Some; congruence). rewrite (proj2 (Z.leb_le _ _)), (proj2 (Z.ltb_lt _ _)) by lia. cbn [andb].
    rewrite Nat2Z.id, N. reflexivity.
  - apply nth_error_None in N. rewrite (proj2 (Z.ltb_ge (Z.of_nat j) _)) by lia. rewrite Bool.andb_false_r. reflexivity.
Qed.

Section Unused.
  Context {A : arith} {L V : Type} (veq : V -> V -> bool) (vnum : A -> V) (U : textlib).

  Lemma agree_len : forall {T} u c (M M' : list (list T)), agree_on u c M M' -> length M = length M'.
  Proof. intros T u c M M' H. induction H; cbn; congruence. Qed.
  Lemma agree_weaken : forall {T} (u w : nat -> Prop) c (M M' : list (list T)), (forall j, w j -> u j) -> agree_on u c M M' -> agree_on w c M M'.
  Proof. intros T u w c M M' H G. unfold agree_on in *. induction G as [|r r' M M' (X & Y & Z) G IH]; constructor; auto. Qed.
  Lemma agree_all : forall {T} c (M M' : list (list T)), agree_on (fun _ => True) c M M' -> M = M'.
  Proof.
    intros T c M M' H. induction H as [|r r' M M' (X & Y & Z) G IH]; [reflexivity|]. f_equal; [|exact IH].
    clear -Z. revert r' Z. induction r as [|x r IH]; intros [|y r'] Z; auto.
    - specialize (Z 0 I). discriminate.
    - specialize (Z 0 I). discriminate.
    - f_equal; [specialize (Z 0 I); cbn in Z; congruence|]. apply IH. intros j _. exact (Z (S j) I).
  Qed.
  Lemma agree_shape : forall u c (M M' : list (list A)), agree_on u c M M' -> shape (ll M) = shape (ll M').
  Proof.
    intros u c M M' H. pose proof (agree_len _ _ _ _ H) as E. destruct H as [|r r' M M' (X & Y & _) G]; [reflexivity|].
    unfold ll. cbn in E. cbn. rewrite !map_length, X, Y. injection E as ->. reflexivity.
  Qed.

  (** ** Trees *)
  Lemma descend_agree : forall (t : tree A L) (r r' : list A), fitted t -> length r = length r' ->
    (forall j, tree_uses t j -> nth_error r j = nth_error r' j) ->
    forall fuel nd, nd < length (t_left t) -> descend t (Ls r) fuel (Z.of_nat nd) = descend t (Ls r') fuel (Z.of_nat nd).
  Proof.
    intros t r r' (H1 & HR & HF & HT & HV & HN) HL HU. induction fuel as [|n IH]; intros nd Hnd; [reflexivity|]. cbn [descend].
    destruct (HN nd Hnd) as [[EL ER]|(l & k & f & EL & ER & EF & Bl & Bk & NE)].
    - rewrite !lget_nn, EL, ER. cbn [bind]. reflexivity.
    - rewrite !lget_nn, EL, ER. cbn [bind]. destruct (_ =? _)%Z; [reflexivity|].
      unfold split_value. rewrite !lget_nn, EF. cbn [bind]. cbn [item_get]. rewrite !lget_nn.
      rewrite (HU f). 2:{ exists nd, (Z.of_nat l), (Z.of_nat k). repeat split; auto. intro Q. apply NE. lia. }
      apply bind_on; [reflexivity|]. intros v _. apply bind_on; [reflexivity|]. intros h _. destruct (leb v h); apply IH; lia.
  Qed.
  Lemma leaf_agree : forall (t : tree A L) (r r' : list A), fitted t -> length r = length r' ->
    (forall j, tree_uses t j -> nth_error r j = nth_error r' j) -> get_leaf_node t (Ls r) = get_leaf_node t (Ls r').
  Proof. intros t r r' F HL HU. unfold get_leaf_node. apply (descend_agree t r r' F HL HU _ 0). destruct F; lia. Qed.
  Lemma leaves_agree : forall (t : tree A L) c M M', fitted t -> agree_on (tree_uses t) c M M' -> leaves t (ll M) = leaves t (ll M').
  Proof.
    intros t c M M' F H. unfold leaves.
    assert (E : mapM (get_leaf_node t) (map Ls M) = mapM (get_leaf_node t) (map Ls M')).
    { rewrite !mapM_map. induction H as [|r r' M M' (X & Y & Z) G IH]; [reflexivity|]. cbn [mapM]. rewrite IH.
      rewrite (leaf_agree t r r' F) by (auto; congruence). reflexivity. }
    destruct H as [|r r' M M' (X & Y & Z) G]; [reflexivity|]. exact E.
  Qed.
  Lemma reg_agree : forall (t : tree A L) c M M', fitted t -> agree_on (tree_uses t) c M M' -> reg_predict t (ll M) = reg_predict t (ll M').
  Proof. intros t c M M' F H. unfold reg_predict. rewrite (leaves_agree t c M M' F H). reflexivity. Qed.

  (** ** Probability functions that look only at the columns [u] *)
  Definition blind (u : nat -> Prop) (p : proba_fun A) : Prop := forall c M M', agree_on u c M M' -> p (ll M) = p (ll M').

  Lemma slice_agree : forall f u c (M M' : list (list A)), Forall (fun z => 0 <= z)%Z f ->
    agree_on (fun j => exists k, nth_error f k = Some (Z.of_nat j) /\ u k) c M M' ->
    (exists e, feat_slice (ll M) (Some f) = Err e /\ feat_slice (ll M') (Some f) = Err e) \/
    (exists N N', feat_slice (ll M) (Some f) = Ok (ll N) /\ feat_slice (ll M') (Some f) = Ok (ll N') /\ agree_on u (length f) N N').
  Proof.
    intros f u c M M' NN H. unfold feat_slice. cbn [ll items bind]. rewrite !mapM_map. cbn [bind].
    assert (D : forall r r' : list A, length r = c -> length r' = c ->
      (forall j, (exists k, nth_error f k = Some (Z.of_nat j) /\ u k) -> nth_error r j = nth_error r' j) ->
      (mapM (item_get (Ls r)) f = Err IndexError /\ mapM (item_get (Ls r')) f = Err IndexError) \/
      exists n n', mapM (item_get (Ls r)) f = Ok n /\ mapM (item_get (Ls r')) f = Ok n' /\ length n = length f /\ length n' = length f /\
        forall k, u k -> nth_error n k = nth_error n' k).
    { intros r r' X Y. clear H. revert u. induction NN as [|z f Hz NN IH]; intros u Z.
      - right. exists [], []. repeat split; auto.
      - destruct (Z_of_nat_complete z Hz) as [j ->]. cbn [mapM item_get]. rewrite !lget_nn.
        destruct (nth_error r j) as [x|] eqn:Er.
        + assert (j < c) by (rewrite <- X; apply nth_error_Some; congruence).
          destruct (nth_error r' j) as [x'|] eqn:Er'; [|apply nth_error_None in Er'; lia]. cbn [bind].
          destruct (IH (fun k => u (S k))) as [[E E']|(n & n' & E & E' & K & K' & Q)].
          * intros i (k & Hk & Uk). apply Z. exists (S k). auto.
          * left. rewrite E, E'. auto.
          * right. rewrite E, E'. cbn [bind]. exists (x :: n), (x' :: n'). repeat split; cbn; auto.
            intros [|k] Uk; [|apply Q; exact Uk]. cbn. rewrite <- Er, <- Er'. apply Z. exists 0. auto.
        + assert (c <= j) by (rewrite <- X; apply nth_error_None; exact Er).
          destruct (nth_error r' j) as [x'|] eqn:Er'; [assert (j < length r') by (apply nth_error_Some; congruence); lia|]. left. auto. }
    cut ((exists e, mapM (fun r => mapM (item_get (Ls r)) f) M = Err e /\ mapM (fun r => mapM (item_get (Ls r)) f) M' = Err e) \/
         (exists N N', mapM (fun r => mapM (item_get (Ls r)) f) M = Ok N /\ mapM (fun r => mapM (item_get (Ls r)) f) M' = Ok N' /\ agree_on u (length f) N N')).
    { intros [(e & E & E')|(N & N' & E & E' & G)]; [left|right]; rewrite E, E'; cbn [bind]; eauto. }
    induction H as [|r r' M M' (X & Y & Z) G IH].
    - right. exists [], []. repeat split. constructor.
    - cbn [mapM]. destruct (D r r' X Y Z) as [[E E']|(n & n' & E & E' & K & K' & Q)]; rewrite E, E'; [left; exists IndexError; auto|].
      destruct IH as [(e & I1 & I2)|(N & N' & I1 & I2 & G')]; [left; exists e; rewrite I1, I2; auto|].
      right. exists (n :: N), (n' :: N'). rewrite I1, I2. repeat split. constructor; auto.
  Qed.

  Lemma bagging_agree : forall (b : bagging A L) M M',
    (forall i, member_proba b (ll M) i = member_proba b (ll M') i) -> bagging_predict_proba b (ll M) = bagging_predict_proba b (ll M').
  Proof.
    intros b M M' H. unfold bagging_predict_proba. apply bind_on; [apply H|]. intros p0 _. apply bind_on; [|reflexivity].
    apply foldM_on. intros a i _. rewrite H. reflexivity.
  Qed.

  Lemma gb_agree : forall (g : gb A L) c M M', Forall (Forall fitted) (gb_estimators g) ->
    agree_on (fun j => exists row t, In row (gb_estimators g) /\ In t row /\ tree_uses t j) c M M' ->
    (forall i, gb_init g = Some i -> i (ll M) = i (ll M')) ->
    gb_raw_predict g (ll M) = gb_raw_predict g (ll M').
  Proof.
    intros g c M M' F H I. unfold gb_raw_predict.
    assert (ES := agree_shape _ _ _ _ H). apply bind_on.
    { unfold gb_raw_init. destruct M as [|r M]; [inversion H; subst; reflexivity|]. destruct M' as [|r' M']; [inversion H|].
      cbn [ll map check_array bind]. change (Arr (Ls r :: map Ls M)) with (ll (r :: M)). change (Arr (Ls r' :: map Ls M')) with (ll (r' :: M')).
      unfold shape1. rewrite ES. apply bind_on; [reflexivity|]. intros w _. apply bind_on; [reflexivity|]. intros _ _.
      destruct (gb_init g) as [i|]; [|reflexivity]. unfold get_init_raw. rewrite (I i eq_refl). reflexivity. }
    intros init _. apply bind_on; [reflexivity|]. intros e0 _. apply bind_on; [|reflexivity].
    apply mapM_ext. intros k _. unfold shape0. rewrite ES. apply bind_on; [reflexivity|]. intros n _. unfold gb_column.
    apply foldM_on. intros col ix _. apply bind_on; [reflexivity|]. intros row Er. apply bind_on; [reflexivity|]. intros t Et.
    apply lnth_In in Er. apply lnth_In in Et. rewrite (reg_agree t c M M'); [reflexivity| |].
    - rewrite Forall_forall in F. specialize (F row Er). rewrite Forall_forall in F. auto.
    - eapply agree_weaken; [|exact H]. intros j Hj. exists row, t. auto.
  Qed.

  Lemma xgb_agree : forall (g : xgb A L) c M M',
    Forall (fun row => match row with One t => fitted t | Many l => Forall fitted l end) (xg_estimators g) ->
    agree_on (uses (V:=V) (EXgb g)) c M M' -> xgb_predict_proba g (ll M) = xgb_predict_proba g (ll M').
  Proof.
    intros g c M M' F H. rewrite Forall_forall in F. unfold xgb_predict_proba.
    assert (EL := agree_len _ _ _ _ H).
    destruct M as [|r M]; [inversion H; subst; reflexivity|]. destruct M' as [|r' M']; [inversion H|].
    cbn [ll map check_array bind]. change (Arr (Ls r :: map Ls M)) with (ll (r :: M)). change (Arr (Ls r' :: map Ls M')) with (ll (r' :: M')).
    assert (EN : len (ll (r :: M)) = len (ll (r' :: M'))). { unfold len, ll. cbn. rewrite !map_length. cbn in EL. injection EL as ->. reflexivity. }
    assert (ES : xgb_scores g (ll (r :: M)) = xgb_scores g (ll (r' :: M'))).
    { unfold xgb_scores. apply mapM_ext. intros cls _. rewrite EN. apply bind_on; [reflexivity|]. intros n _. apply foldM_on. intros acc e _.
      apply bind_on; [reflexivity|]. intros row Er. apply bind_on; [reflexivity|]. intros t Et. apply lget_In in Er. destruct row as [|l]; [discriminate|].
      apply lget_In in Et. rewrite (reg_agree t c (r :: M) (r' :: M')); [reflexivity| |].
      - specialize (F _ Er). cbn in F. rewrite Forall_forall in F. auto.
      - eapply agree_weaken; [|exact H]. intros j Hj. exists (Many l). eauto. }
    assert (EB : xgb_binary_scores g (ll (r :: M)) = xgb_binary_scores g (ll (r' :: M'))).
    { unfold xgb_binary_scores. rewrite EN. apply bind_on; [reflexivity|]. intros n _. apply foldM_on. intros acc row Er. destruct row as [t|l]; [|reflexivity].
      rewrite (reg_agree t c (r :: M) (r' :: M')); [reflexivity| |].
      - exact (F _ Er).
      - eapply agree_weaken; [|exact H]. intros j Hj. exists (One t). eauto. }
    destruct (str_eqb _ _).
    - rewrite ES, EN. reflexivity.
    - destruct (str_eqb _ _); [|reflexivity]. rewrite EB. reflexivity.
  Qed.

  (** ** Objects *)
  Lemma same_refl : forall (o : obj A L V) M, same_answers o M M.
  Proof. intros. repeat split. Qed.
  Lemma same_proba_of : forall (o : obj A L V) M M', same_answers o M M' -> proba_of o (ll M) = proba_of o (ll M').
  Proof. intros o M M' (_ & H & _). unfold proba_of. destruct (o_proba o) as [g|]; [apply H|]; reflexivity. Qed.
  Lemma same_classifier : forall (p : arr A -> res (list L)) pp lp cl M M', p (ll M) = p (ll M') -> (forall f, pp = Some f -> f (ll M) = f (ll M')) ->
    (forall f, lp = Some f -> f (ll M) = f (ll M')) -> same_answers (A:=A) (classifier (V:=V) p pp lp cl) M M'.
  Proof.
    intros p pp lp cl M M' H1 H2 H3. unfold classifier, reads. split; [|split]; cbn [o_predict o_proba o_log_proba].
    - intros g E. injection E as <-. cbn [fst as_num]. rewrite H1. reflexivity.
    - intros g E. destruct pp as [f|]; [|discriminate]. injection E as <-. cbn [fst as_num]. apply H2. reflexivity.
    - intros g E. destruct lp as [f|]; [|discriminate]. injection E as <-. cbn [fst as_num]. apply H3. reflexivity.
  Qed.

  Lemma obj_agree : forall e : est A L V, trees_fitted e -> forall c M M', agree_on (uses e) c M M' ->
    same_answers (obj_of veq vnum U e) M M'.
  Proof.
    fix IH 1. intros e F c M M' H.
    destruct e; try (rewrite (agree_all c M M' H); apply same_refl).
    - cbn [obj_of trees_fitted] in *. pose proof (leaves_agree t c M M' F H) as E.
      apply same_classifier; [|intros f Q; injection Q as <-..].
      + unfold tree_predict. rewrite E. reflexivity.
      + unfold tree_predict_proba. rewrite E. reflexivity.
      + unfold tree_predict_log_proba, tree_predict_proba. rewrite E. reflexivity.
    - cbn [obj_of trees_fitted] in *. split; [|split; discriminate]. intros g E. injection E as <-. cbn [fst as_num].
      rewrite (reg_agree t c M M' F H). reflexivity.
    - cbn [obj_of].
      set (b := {| b_members := _; b_feats := feats; b_classes := classes |}).
      assert (P : bagging_predict_proba b (ll M) = bagging_predict_proba b (ll M')).
      { apply bagging_agree. intro i. unfold member_proba, get_feats. subst b. cbn [b_members b_feats].
        destruct F as [F N]. destruct feats as [fs|].
        - revert fs N i H. induction members as [|m ms IHm]; intros fs N i H; [destruct i; reflexivity|].
          destruct F as [Fm F]. destruct fs as [|f fs].
          + destruct (lnth _ i); [|reflexivity]. cbn [bind]. destruct i; reflexivity.
          + apply Forall_cons_iff in N. destruct N as [Nf N]. destruct i as [|i].
            * cbn [lnth nth_error map bind]. 
              destruct (slice_agree f (uses m) c M M' Nf) as [(e & E & E')|(K & K' & E & E' & G)].
              -- eapply agree_weaken; [|exact H]. intros j Hj. cbn [uses]. left. exact Hj.
              -- unfold lnth. cbn [nth_error bind]. rewrite E, E'. reflexivity.
              -- unfold lnth. cbn [nth_error bind]. rewrite E, E'. cbn [bind]. apply same_proba_of. exact (IH m Fm _ K K' G).
            * apply (IHm F fs N i). eapply agree_weaken; [|exact H]. intros j Hj. cbn [uses]. right. exact Hj.
        - revert i H. clear N. induction members as [|m ms IHm]; intros i H; [destruct i; reflexivity|].
          destruct F as [Fm F]. destruct i as [|i].
          + unfold lnth. cbn [nth_error map bind feat_slice]. apply same_proba_of. apply (IH m Fm c M M'). eapply agree_weaken; [|exact H].
            intros j Hj. cbn [uses]. left. exact Hj.
          + apply (IHm F i). eapply agree_weaken; [|exact H]. intros j Hj. cbn [uses]. right. exact Hj. }
      apply same_classifier; [|intros f Q; injection Q as <-..].
      + unfold bagging_predict. rewrite P. reflexivity.
      + exact P.
      + unfold bagging_predict_log_proba. rewrite P. reflexivity.
    - cbn [obj_of].
      set (g := {| gb_estimators := trees; gb_init := _; gb_lr := lr; gb_nfeat := nfeat; gb_loss := ls; gb_classes := classes |}).
      assert (P : gb_raw_predict g (ll M) = gb_raw_predict g (ll M')).
      { destruct F as [F Fi]. apply (gb_agree g c); [exact F| |].
        - eapply agree_weaken; [|exact H]. intros j Hj. cbn [uses]. left. exact Hj.
        - subst g. cbn [gb_init]. destruct init as [i|]; [|discriminate]. cbn [option_map]. intros p E. injection E as <-.
          apply same_proba_of. apply (IH i Fi c M M'). eapply agree_weaken; [|exact H]. intros j Hj. cbn [uses]. right. exact Hj. }
      apply same_classifier; [|intros f Q; injection Q as <-..].
      + unfold gb_predict, gb_predict_proba. rewrite P. reflexivity.
      + unfold gb_predict_proba. rewrite P. reflexivity.
      + unfold gb_predict_log_proba, gb_predict_proba. rewrite P. reflexivity.
    - cbn [obj_of]. pose proof (xgb_agree g c M M' F H) as E. apply same_classifier; [|intros f Q; injection Q as <-|discriminate].
      + unfold xgb_predict. rewrite E. reflexivity.
      + exact E.
    - cbn [obj_of]. pose proof (agree_len _ _ _ _ H) as EL.
      assert (EN : len (ll M) = len (ll M')). { unfold len, ll. cbn. rewrite !map_length, EL. reflexivity. }
      split; [|split]; intros g E; injection E as <-; cbn [fst as_sized].
      + unfold dummy_predict. rewrite EN. reflexivity.
      + unfold dummy_predict_proba. rewrite EN. reflexivity.
      + unfold dummy_predict_log_proba, dummy_predict_proba. rewrite EN. reflexivity.
  Qed.

  (** ** Linear models: a zero coefficient times a finite cell adds nothing *)
  Hypothesis OK : arith_ok A.
  Lemma fold_zero_terms : forall (l l' : list A), Forall2 (fun a b => a = b \/ (eqb a zero = true /\ eqb b zero = true)) l l' ->
    forall acc, clean acc -> fold_left add l acc = fold_left add l' acc.
  Proof.
    intros l l' H. induction H as [|a b l l' Q H IH]; intros acc C; [reflexivity|]. cbn [fold_left].
    destruct Q as [->|[Za Zb]].
    - apply IH. apply (a_clean_add _ OK). exact C.
    - rewrite (a_absorb _ OK acc a C Za), (a_absorb _ OK acc b C Zb). apply IH. exact C.
  Qed.
  Lemma dot_agree : forall (w : list A) r r', length r = length r' ->
    (forall j, match nth_error w j with Some v => eqb v zero = false -> nth_error r j = nth_error r' j | None => True end) ->
    Forall finite r -> Forall finite r' -> psum (zip_with mul r w) = psum (zip_with mul r' w).
  Proof.
    intros w r r' EL H F F'. unfold psum. apply fold_zero_terms; [|apply (a_clean0 _ OK)].
    revert r r' EL H F F'. induction w as [|v w IH]; intros [|x r] [|y r'] EL H F F'; try discriminate; cbn [zip_with]; try constructor.
    - apply Forall_cons_iff in F, F'. specialize (H 0). cbn in H. destruct (eqb v zero) eqn:Z.
      + right. rewrite (a_mul_comm _ OK x), (a_mul_comm _ OK y). split; apply (a_mul_zero _ OK); tauto.
      + left. specialize (H eq_refl). injection H as ->. reflexivity.
    - apply Forall_cons_iff in F, F'. apply IH; try tauto.
      + cbn in EL. congruence.
      + intro j. exact (H (S j)).
  Qed.
  Lemma decision_agree : forall (k : linear A L) c M M', agree_on (linear_uses k) c M M' -> Forall (Forall finite) M -> Forall (Forall finite) M' ->
    decision_function k (ll M) = decision_function k (ll M').
  Proof.
    intros k c M M' H F F'. assert (ES := agree_shape _ _ _ _ H).
    assert (E : mapM (row_scores k) (map Ls M) = mapM (row_scores k) (map Ls M')).
    { rewrite !mapM_map. clear ES. induction H as [|r r' M M' (X & Y & Z) G IH]; [reflexivity|]. apply Forall_cons_iff in F, F'.
      cbn [mapM]. rewrite IH by tauto. f_equal. unfold row_scores. f_equal. unfold dot. apply mapM_ext. intros w Hw. f_equal.
      apply dot_agree; try tauto; [congruence|]. intro j. destruct (nth_error w j) as [v|] eqn:Ew; [|exact I]. intro Nz. apply Z. exists w, v. auto. }
    unfold decision_function. destruct H as [|r r' M M' _ _]; [reflexivity|].
    cbn [ll map check_array bind]. change (Arr (Ls r :: map Ls M)) with (ll (r :: M)). change (Arr (Ls r' :: map Ls M')) with (ll (r' :: M')).
    apply bind_on; [reflexivity|]. intros nf _. unfold shape1 at 1 3. rewrite ES. apply bind_on; [reflexivity|]. intros w _.
    apply bind_on; [reflexivity|]. intros _ _. cbn [ll items bind]. rewrite E. reflexivity.
  Qed.
  Lemma linear_agree : forall kd (k : linear A L) c M M', agree_on (linear_uses k) c M M' -> Forall (Forall finite) M -> Forall (Forall finite) M' ->
    same_answers (obj_of veq vnum U (ELinear kd k)) M M'.
  Proof.
    intros kd k c M M' H F F'. pose proof (decision_agree k c M M' H F F') as E.
    assert (P : linear_predict k (ll M) = linear_predict k (ll M')) by (unfold linear_predict; rewrite E; reflexivity).
    assert (Q : predict_proba_lr k (ll M) = predict_proba_lr k (ll M')) by (unfold predict_proba_lr; rewrite E; reflexivity).
    assert (R : logistic_predict_proba k (ll M) = logistic_predict_proba k (ll M')) by (unfold logistic_predict_proba; rewrite Q, E; reflexivity).
    assert (S : sgd_predict_proba_inner k (ll M) = sgd_predict_proba_inner k (ll M')) by (unfold sgd_predict_proba_inner; rewrite Q; reflexivity).
    destruct kd; cbn [obj_of]; apply same_classifier; auto; try discriminate.
    - intros f W. injection W as <-. exact R.
    - intros f W. injection W as <-. unfold logistic_predict_log_proba. rewrite R. reflexivity.
    - intros f W. destruct (is_ok _); [|discriminate]. injection W as <-. exact S.
    - intros f W. destruct (is_ok _); [|discriminate]. injection W as <-. unfold sgd_predict_log_proba, sgd_predict_proba. rewrite S. reflexivity.
  Qed.
End Unused.
