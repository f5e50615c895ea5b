(** The predictors, row by row. *)
From Coq Require Import String Lia.
From Verif Require Import Model.Py Model.Arith Model.Utils Model.Base Model.Tree Model.Ensemble Model.Xgb Model.Linear
  Model.NaiveBayes Model.Dummy.
From Verif Require Import Proofs.Lib Proofs.Rows.

Definition wide {T} (c : nat) (M : list (list T)) : Prop := M <> [] /\ Forall (fun r => length r = c) M.

Section Basics.
  Context {A : arith}.
  Lemma check_wide : forall {T} (M : list (list T)) h, M <> [] -> check_array (ll M) h = Ok (ll M).
  Proof. intros T [|r M] h H; [congruence|reflexivity]. Qed.
  Lemma shape_wide : forall {T} (M : list (list T)) c, wide c M -> shape (ll M) = Ok (S2 (Z.of_nat (length M)) (Some (Z.of_nat c))).
  Proof.
    intros T [|r M] c [N H]; [congruence|]. inversion H; subst. unfold shape, ll. cbn [items map bind]. cbn [length].
    rewrite map_length. auto.
  Qed.
  Lemma shape1_wide : forall {T} (M : list (list T)) c, wide c M -> shape1 (ll M) = Ok (Some (Z.of_nat c)).
  Proof. intros T M c H. unfold shape1. rewrite (shape_wide _ _ H). auto. Qed.
  Lemma shape0_wide : forall {T} (M : list (list T)) c, wide c M -> shape0 (ll M) = Ok (Z.of_nat (length M)).
  Proof. intros T M c H. unfold shape0. rewrite (shape_wide _ _ H). auto. Qed.
  Lemma shape1_sp : forall {T} (R : list (dict Z T)) sz dt, R <> [] -> shape1 (Sp R sz dt) = Ok sz.
  Proof. intros T [|r R] sz dt H; [congruence|reflexivity]. Qed.
  Lemma iter_ll : forall (M : list (list A)), mapM iter_item (map Ls M) = Ok M.
  Proof. intro M. rewrite mapM_map. cbn. rewrite (mapM_Ok (fun x => x)), map_id. auto. Qed.
  Lemma transpose_ll : forall (M : list (list A)), transpose (ll M) = Ok (zipstar M).
  Proof. intro M. unfold transpose. cbn [issparse ll items bind]. rewrite iter_ll. auto. Qed.
  Lemma apply_2d_rows : forall {B} (M : list (list A)) (f : A -> res B), apply_2d (ll M) f = mapM (mapM f) M.
  Proof. intros B M f. unfold apply_2d. cbn [issparse ll items bind]. rewrite mapM_map. apply mapM_ext. auto. Qed.

  Lemma zipstar_single : forall {T} (M : list (list T)), wide 1 M -> zipstar M = [concat M].
  Proof.
    intros T M [N H]. induction M as [|r M IH]; [congruence|]. inversion H as [|? ? Hr HM]; subst.
    destruct r as [|x [|y r]]; try discriminate. destruct M as [|r2 M]; [reflexivity|].
    change (zipstar ([x] :: r2 :: M)) with (zip_with cons [x] (zipstar (r2 :: M))). rewrite IH; [reflexivity|discriminate|auto].
  Qed.
  Lemma ravel_single : forall (M : list (list A)), wide 1 M -> ravel (ll M) = Ok (concat M).
  Proof. intros M H. unfold ravel. cbn [issparse ll]. fold (ll M). rewrite transpose_ll. cbn [bind]. rewrite zipstar_single by auto. auto. Qed.
  Lemma singles : forall {T U} (f : T -> res U) (M : list (list T)), wide 1 M -> mapM f (concat M) = mapM (fun r => v <- lnth r 0 ;; f v) M.
  Proof.
    intros T U f M [_ H]. induction H as [|r M Hr H IH]; [reflexivity|]. destruct r as [|x [|y r]]; try discriminate.
    cbn [concat app mapM]. rewrite IH. auto.
  Qed.
  (** [zip( *columns)] *)
  Lemma zipstar_rows : forall {T} (P : list (list T)) n, P <> [] -> Forall (fun p => length p = n) P ->
    mapM (fun i => mapM (fun p => lnth p i) P) (range n) = Ok (zipstar P).
  Proof.
    intros T P n N H.
    assert (G : length (zipstar P) = n /\ forall i, i < n -> exists r, nth_error (zipstar P) i = Some r /\ mapM (fun p => lnth p i) P = Ok r).
    { induction P as [|p P IH]; [congruence|]. inversion H as [|? ? Hp HP]; subst. destruct P as [|q P].
      - cbn [zipstar]. rewrite map_length. split; auto. intros i Hi. destruct (lnth_lt p i Hi) as (x & E1 & E2).
        exists [x]. rewrite nth_error_map', E2. cbn. rewrite E1. auto.
      - destruct IH as [IH1 IH2]; [discriminate|auto|].
        change (zipstar (p :: q :: P)) with (zip_with cons p (zipstar (q :: P))).
        rewrite zip_with_length, IH1, Nat.min_id. split; auto. intros i Hi. destruct (IH2 i Hi) as (r & E1 & E2).
        destruct (lnth_lt p i Hi) as (x & E3 & E4). exists (x :: r). rewrite zip_with_nth, E1, E4. split; auto.
        cbn [mapM] in *. rewrite E3. cbn [bind]. rewrite E2. auto. }
    destruct G as [G1 G2]. apply mapM_Forall2. apply Forall2_nth_error. unfold range. rewrite seq_length. split; auto.
    intros i k r E1 E2. rewrite nth_error_seq in E1. destruct (i <? n) eqn:Hi; [|discriminate]. apply Nat.ltb_lt in Hi.
    injection E1 as <-. destruct (G2 _ Hi) as (r' & E3 & E4). cbn [plus]. congruence.
  Qed.
  (** columns computed one by one, then zipped *)
  Lemma oke_zipstar : forall {C S T} (h : C -> S -> res T) cs l, cs <> [] ->
    oke (P <- mapM (fun c => mapM (h c) l) cs ;; Ok (zipstar P)) (mapM (fun x => mapM (fun c => h c x) cs) l).
  Proof.
    intros C S T h cs l N. eapply oke_trans; [|eapply oke_trans; [exact (oke_rows h Ok cs l)|]].
    - apply oke_bind_r. intros P E. apply oke_eq. symmetry.
      rewrite (mapM_ext _ (fun i => mapM (fun p => lnth p i) P)) by (intros; apply bind_ret).
      apply zipstar_rows; [eapply mapM_ne; eauto|]. apply Forall_forall. intros p Hp.
      destruct (mapM_in _ _ _ _ E Hp) as (c & _ & Ec). eapply mapM_length; eauto.
    - apply oke_mapM. intros x _. rewrite bind_ret. apply oke_refl.
  Qed.
  Lemma operate_wide : forall (P Q : list (list A)) c d f, wide c P -> wide d Q -> length P = length Q ->
    operate_2d (ll P) (ll Q) f = if (c =? d)%nat then Ok (zip_with (zip_with f) P Q) else Err ValueError.
  Proof.
    intros P Q c d f HP HQ HL. unfold operate_2d. cbn [issparse ll orb]. fold (ll P) (ll Q).
    rewrite (shape_wide _ _ HP), (shape_wide _ _ HQ). cbn [bind shp_eqb]. rewrite HL, Z.eqb_refl. cbn [andb].
    destruct (Nat.eqb_spec c d) as [->|ND].
    - rewrite Z.eqb_refl. cbn [guard bind ll items]. rewrite map_length.
      rewrite zip_with_combine. rewrite <- (mapM_Ok (fun p => zip_with f (fst p) (snd p))).
      rewrite <- (mapM_range_nth2 P Q (fun x y => Ok (zip_with f x y)) HL). apply mapM_ext. intros i Hi. apply in_seq in Hi.
      destruct (lnth_lt P i ltac:(lia)) as (x & E1 & E2). destruct (lnth_lt Q i ltac:(lia)) as (y & E3 & E4).
      rewrite E1, E3. unfold lnth. rewrite !nth_error_map', E2, E4. reflexivity.
    - destruct (Z.eqb_spec (Z.of_nat c) (Z.of_nat d)); [lia|]. reflexivity.
  Qed.
  Lemma wide_mapM : forall {S T} (g : S -> res (list T)) l M c, l <> [] -> (forall x r, In x l -> g x = Ok r -> length r = c) ->
    mapM g l = Ok M -> wide c M.
  Proof.
    intros S T g l M c N H E. split; [eapply mapM_ne; eauto|]. apply Forall_forall. intros r Hr.
    destruct (mapM_in _ _ _ _ E Hr) as (x & Hx & Ex). eauto.
  Qed.
End Basics.

Section Leaves.
  Context {A : arith} {L : Type}.

  (** A method on numbers that treats rows one by one. *)
  Definition num_pred {T} (f : arr A -> res (list T)) : Prop :=
    (forall t, f NotList <> Ok t) /\
    (forall c, exists g : list A -> res T, forall M, wide c M -> oke (f (ll M)) (mapM g M)) /\
    (forall sz dt, exists g : dict Z A -> res T, forall R, R <> [] -> oke (f (Sp R sz dt)) (mapM g R)).
  Definition num_proba (f : arr A -> res (list (list A))) : Prop :=
    (forall t, f NotList <> Ok t) /\
    (forall c, exists w (g : list A -> res (list A)), (forall x r, length x = c -> g x = Ok r -> length r = w) /\ forall M, wide c M -> oke (f (ll M)) (mapM g M)) /\
    (forall sz dt, exists w (g : dict Z A -> res (list A)), (forall x r, g x = Ok r -> length r = w) /\ forall R, R <> [] -> oke (f (Sp R sz dt)) (mapM g R)).

  Lemma num_pred_then : forall {T} (f : arr A -> res (list (list A))) (h : list A -> res T), num_proba f ->
    num_pred (fun X => p <- f X ;; mapM h p).
  Proof.
    intros T f h (H1 & H2 & H3). split; [|split].
    - intros t E. nb E p F. eapply H1; eauto.
    - intro c. destruct (H2 c) as (w & g & _ & G). exists (fun x => r <- g x ;; h r). intros M HM.
      eapply oke_trans; [apply oke_bind_l; apply G; auto|]. apply oke_comp.
    - intros sz dt. destruct (H3 sz dt) as (w & g & _ & G). exists (fun x => r <- g x ;; h r). intros R HR.
      eapply oke_trans; [apply oke_bind_l; apply G; auto|]. apply oke_comp.
  Qed.
  Lemma num_proba_then : forall (f : arr A -> res (list (list A))) (h : list A -> res (list A)),
    (forall w, exists w', forall a r, length a = w -> h a = Ok r -> length r = w') ->
    num_proba f -> num_proba (fun X => p <- f X ;; mapM h p).
  Proof.
    intros f h HW (H1 & H2 & H3). split; [|split].
    - intros t E. nb E p F. eapply H1; eauto.
    - intro c. destruct (H2 c) as (w & g & W & G). destruct (HW w) as (w' & HW'). exists w', (fun x => r <- g x ;; h r).
      split; [intros x r Hx E; nb E y F; eauto|]. intros M HM.
      eapply oke_trans; [apply oke_bind_l; apply G; auto|]. apply oke_comp.
    - intros sz dt. destruct (H3 sz dt) as (w & g & W & G). destruct (HW w) as (w' & HW'). exists w', (fun x => r <- g x ;; h r).
      split; [intros x r E; nb E y F; eauto|]. intros R HR.
      eapply oke_trans; [apply oke_bind_l; apply G; auto|]. apply oke_comp.
  Qed.

  Lemma num_pred_of : forall {T} (f : arr A -> res (list T)) (g : item A -> res T),
    (forall t, f NotList <> Ok t) ->
    (forall M, M <> [] -> oke (f (ll M)) (mapM g (map Ls M))) ->
    (forall R sz dt, R <> [] -> oke (f (Sp R sz dt)) (mapM g (map Di R))) -> num_pred f.
  Proof.
    intros T f g H1 H2 H3. split; [exact H1|]. split.
    - intro c. exists (fun r => g (Ls r)). intros M [N _]. specialize (H2 M N). rewrite mapM_map in H2. auto.
    - intros sz dt. exists (fun r => g (Di r)). intros R N. specialize (H3 R sz dt N). rewrite mapM_map in H3. auto.
  Qed.
  Lemma num_proba_of : forall (f : arr A -> res (list (list A))) (g : item A -> res (list A)) w,
    (forall x r, g x = Ok r -> length r = w) ->
    (forall t, f NotList <> Ok t) ->
    (forall M, M <> [] -> oke (f (ll M)) (mapM g (map Ls M))) ->
    (forall R sz dt, R <> [] -> oke (f (Sp R sz dt)) (mapM g (map Di R))) -> num_proba f.
  Proof.
    intros f g w W H1 H2 H3. split; [exact H1|]. split.
    - intro c. exists w, (fun r => g (Ls r)). split; [eauto|]. intros M [N _]. specialize (H2 M N). rewrite mapM_map in H2. auto.
    - intros sz dt. exists w, (fun r => g (Di r)). split; [eauto|]. intros R N. specialize (H3 R sz dt N). rewrite mapM_map in H3. auto.
  Qed.
  Lemma log_proba_rows : forall f, num_proba f -> num_proba (fun X => p <- f X ;; mapM (mapM safe_log) p).
  Proof. intros f H. apply num_proba_then; [|exact H]. intro w. exists w. intros a r <- E. eapply mapM_length; eauto. Qed.
  Lemma log_proba_2d : forall f, num_proba f -> num_proba (fun X => p <- f X ;; apply_2d (ll p) safe_log).
  Proof.
    intros f H. destruct (log_proba_rows f H) as (H1 & H2 & H3).
    assert (EQ : forall X, (p <- f X ;; apply_2d (ll p) safe_log) = (p <- f X ;; mapM (mapM safe_log) p)).
    { intro X. apply bind_ext. intros. apply apply_2d_rows. }
    split; [|split].
    - intros t. rewrite EQ. apply H1.
    - intro c. destruct (H2 c) as (w & g & W & G). exists w, g. split; auto. intros M HM. rewrite EQ. auto.
    - intros sz dt. destruct (H3 sz dt) as (w & g & W & G). exists w, g. split; auto. intros R HR. rewrite EQ. auto.
  Qed.

  (** Decision trees. *)
  Lemma leaves_ll : forall (t : tree A L) (M : list (list A)), M <> [] -> leaves t (ll M) = mapM (get_leaf_node t) (map Ls M).
  Proof. intros t M N. unfold leaves. rewrite check_wide by auto. reflexivity. Qed.
  Lemma leaves_sp : forall (t : tree A L) (R : list (dict Z A)) sz dt, R <> [] -> leaves t (Sp R sz dt) = mapM (get_leaf_node t) (map Di R).
  Proof. intros t R sz dt N. reflexivity. Qed.
  Lemma leaves_then : forall {T} (t : tree A L) (h : Z -> res T), num_pred (fun X => lv <- leaves t X ;; mapM h lv).
  Proof.
    intros T t h. apply num_pred_of with (g := fun x => nd <- get_leaf_node t x ;; h nd); [discriminate| |].
    - intros M N. rewrite leaves_ll by auto. apply oke_comp.
    - intros R sz dt N. rewrite leaves_sp by auto. apply oke_comp.
  Qed.
  Lemma num_pred_ext : forall {T} (f g : arr A -> res (list T)), (forall X, oke (f X) (g X)) -> num_pred g -> num_pred f.
  Proof.
    intros T f g E (H1 & H2 & H3). split; [|split].
    - intros t K. apply E in K. eapply H1; eauto.
    - intro c. destruct (H2 c) as (h & G). exists h. intros M HM. eapply oke_trans; [apply E|auto].
    - intros sz dt. destruct (H3 sz dt) as (h & G). exists h. intros M HM. eapply oke_trans; [apply E|auto].
  Qed.
  Lemma num_proba_ext : forall (f g : arr A -> res (list (list A))), (forall X, oke (f X) (g X)) -> num_proba g -> num_proba f.
  Proof.
    intros f g E (H1 & H2 & H3). split; [|split].
    - intros t K. apply E in K. eapply H1; eauto.
    - intro c. destruct (H2 c) as (w & h & W & G). exists w, h. split; auto. intros M HM. eapply oke_trans; [apply E|auto].
    - intros sz dt. destruct (H3 sz dt) as (w & h & W & G). exists w, h. split; auto. intros M HM. eapply oke_trans; [apply E|auto].
  Qed.
  Lemma tree_pred : forall t : tree A L, num_pred (tree_predict t).
  Proof.
    intro t. eapply num_pred_ext; [|apply (leaves_then t (fun nd => c <- leaf_pred t nd ;; lnth (t_classes t) c))].
    intro X. unfold tree_predict. apply oke_bind_r. intros lv _. apply oke_comp.
  Qed.
  Lemma reg_pred : forall t : tree A L, num_pred (reg_predict t).
  Proof. intro t. apply (leaves_then t (leaf_value t)). Qed.
  Lemma leaf_proba_len : forall (t : tree A L) w nd r, Forall (fun v => length v = w) (Tree.t_value t) -> leaf_proba t nd = Ok r -> length r = w.
  Proof.
    intros t w nd r H E. unfold leaf_proba in E. nb E v F. apply mapM_length in E. rewrite E. clear E.
    unfold lget in F. destruct ((0 <=? _)%Z && _) in F; [|discriminate]. apply lnth_ok in F. apply nth_error_In in F.
    exact (Forall_In _ _ _ H F).
  Qed.
  Lemma tree_proba : forall (t : tree A L) w, Forall (fun v => length v = w) (Tree.t_value t) -> num_proba (tree_predict_proba t).
  Proof.
    intros t w H. apply num_proba_of with (g := fun x => nd <- get_leaf_node t x ;; leaf_proba t nd) (w := w).
    - intros x r E. nb E nd F. eapply leaf_proba_len; eauto.
    - discriminate.
    - intros M N. unfold tree_predict_proba. rewrite leaves_ll by auto. apply oke_comp.
    - intros R sz dt N. unfold tree_predict_proba. rewrite leaves_sp by auto. apply oke_comp.
  Qed.

  (** The dummy classifier. *)
  Lemma mapM_const : forall {S T} (c : T) (l : list S), mapM (fun _ => Ok c) l = Ok (rep c (length l)).
  Proof. intros S T c l. rewrite (mapM_Ok (fun _ => c)). f_equal. induction l; [auto|]. cbn. f_equal. auto. Qed.
  Lemma dummy_pred : forall d : dummy A, num_pred (dummy_predict d).
  Proof.
    intro d. apply num_pred_of with (g := fun _ => argmax (dm_prior d)).
    - intros t E. unfold dummy_predict in E. nb E i F. discriminate.
    - intros M N. unfold dummy_predict. destruct (argmax (dm_prior d)); cbn.
      + rewrite mapM_const, map_length. apply oke_refl.
      + apply oke_fails. destruct M; [congruence|discriminate].
    - intros R sz dt N. unfold dummy_predict. destruct (argmax (dm_prior d)); cbn.
      + rewrite mapM_const, map_length. apply oke_refl.
      + apply oke_fails. destruct R; [congruence|discriminate].
  Qed.
  Lemma dummy_proba : forall d : dummy A, num_proba (dummy_predict_proba d).
  Proof.
    intro d. apply num_proba_of with (g := fun _ => Ok (dm_prior d)) (w := length (dm_prior d)).
    - intros x r E. congruence.
    - discriminate.
    - intros M N. unfold dummy_predict_proba. cbn. rewrite mapM_const, map_length. apply oke_refl.
    - intros R sz dt N. unfold dummy_predict_proba. cbn. rewrite mapM_const, map_length. apply oke_refl.
  Qed.

  (** Linear models. *)
  Definition n_scores (c : linear A L) : nat := match l_intercept c with Some b => Nat.min (length (l_coef c)) (length b) | None => 0 end.
  Lemma row_scores_len : forall (c : linear A L) x r, row_scores c x = Ok r -> length r = n_scores c.
  Proof.
    intros c x r E. unfold row_scores in E. nb E d F. nb E b G. injection E as <-. unfold dot in F. apply mapM_length in F.
    rewrite zip_with_length, F. unfold n_scores. destruct (l_intercept c); [|discriminate]. injection G as <-. auto.
  Qed.
  (** the decision function followed by anything that treats its rows one by one *)
  Lemma decision_rows : forall {T} (c : linear A L) (h1 : A -> res T) (h2 : list A -> res T) X' l,
    check_array X' HAllow = Ok X' -> items X' = Ok l -> l <> [] -> forall e,
    oke (s <- decision_function c X' ;; match s with D1 q => mapM h1 q | D2 M => mapM h2 M end)
        (mapM (fun x => (nf <- shape1 (ll (l_coef c)) ;; w <- shape1 X' ;;
                         match w, nf with Some w, Some nf => guard (w =? nf)%Z e | _, _ => Err e end) ;;
                        r <- row_scores c x ;;
                        if (n_scores c =? 1)%nat then v <- lnth r 0 ;; h1 v else h2 r) l).
  Proof.
    intros T c h1 h2 X' l HC HI HN e. unfold decision_function. rewrite HC. cbn [bind].
    destruct (shape1 (ll (l_coef c))) as [nf|e1]; cbn [bind]; [|apply oke_fails; auto].
    destruct (shape1 X') as [w|e1]; cbn [bind]; [|apply oke_fails; auto].
    destruct w as [w|]; [|apply oke_fails; auto]. destruct nf as [nf|]; [|apply oke_fails; auto].
    destruct (w =? nf)%Z; cbn [guard bind]; [|apply oke_fails; auto].
    rewrite HI. cbn [bind]. rewrite bind_assoc.
    eapply oke_trans; [|apply oke_comp]. apply oke_bind_r. intros M EM.
    assert (HW : wide (n_scores c) M) by (eapply wide_mapM; [exact HN| |exact EM]; intros; eapply row_scores_len; eauto).
    rewrite (shape1_wide _ _ HW). cbn [bind]. destruct (Nat.eqb_spec (n_scores c) 1) as [E1|E1].
    - rewrite E1 in *. change (Z.of_nat 1) with 1%Z. cbv iota. rewrite (ravel_single _ HW). cbn [bind]. rewrite singles by auto. apply oke_refl.
    - replace (match Z.of_nat (n_scores c) with 1%Z => r <- ravel (ll M) ;; Ok (D1 r) | _ => Ok (D2 M) end) with (Ok (D2 M)).
      { apply oke_refl. }
      destruct (Z.of_nat (n_scores c)) as [|[p|p|]|p] eqn:EZ; auto. lia.
  Qed.
  Lemma decision_then : forall {T} (c : linear A L) (h1 : A -> res T) (h2 : list A -> res T),
    num_pred (fun X => s <- decision_function c X ;; match s with D1 q => mapM h1 q | D2 M => mapM h2 M end).
  Proof.
    intros T c h1 h2. split; [|split].
    - intros t E. discriminate.
    - intro w. exists (fun x => (nf <- shape1 (ll (l_coef c)) ;;
                         match nf with Some nf => guard (Z.of_nat w =? nf)%Z OtherException | _ => Err OtherException end) ;;
                        r <- row_scores c (Ls x) ;;
                        if (n_scores c =? 1)%nat then v <- lnth r 0 ;; h1 v else h2 r).
      intros M [N HM]. eapply oke_trans; [apply decision_rows with (l := map Ls M) (e := OtherException); [apply check_wide; auto|reflexivity|destruct M; [congruence|discriminate]]|].
      rewrite mapM_map. apply oke_mapM. intros x _. rewrite (shape1_wide M w) by (split; auto). cbn [bind]. apply oke_refl.
    - intros sz dt. exists (fun x => (nf <- shape1 (ll (l_coef c)) ;;
                         match sz, nf with Some w, Some nf => guard (w =? nf)%Z OtherException | _, _ => Err OtherException end) ;;
                        r <- row_scores c (Di x) ;;
                        if (n_scores c =? 1)%nat then v <- lnth r 0 ;; h1 v else h2 r).
      intros R N. eapply oke_trans; [apply decision_rows with (l := map Di R) (e := OtherException); [reflexivity|reflexivity|destruct R; [congruence|discriminate]]|].
      rewrite mapM_map. apply oke_mapM. intros x _. rewrite shape1_sp by auto. cbn [bind]. apply oke_refl.
  Qed.
  Lemma num_pred_width : forall (f : arr A -> res (list (list A))) w, num_pred f -> (forall X M, f X = Ok M -> Forall (fun r => length r = w) M) -> num_proba f.
  Proof.
    intros f w (H1 & H2 & H3) W. split; [exact H1|]. split.
    - intro c. destruct (H2 c) as (g & G). exists w, g. split; [|exact G]. intros x r Hx E.
      assert (K : wide c [x]) by (split; [discriminate|constructor; auto]). specialize (G _ K [r]). cbn in G. rewrite E in G. cbn in G.
      destruct G as [_ G]. specialize (W _ _ (G eq_refl)). inversion W; auto.
    - intros sz dt. destruct (H3 sz dt) as (g & G). exists w, g. split; [|exact G]. intros x r E.
      specialize (G [x] ltac:(discriminate) [r]). cbn in G. rewrite E in G. cbn in G.
      destruct G as [_ G]. specialize (W _ _ (G eq_refl)). inversion W; auto.
  Qed.
  Lemma linear_pred : forall c : linear A L, num_pred (linear_predict c).
  Proof. intro c. apply (decision_then c (fun x => lnth (l_classes c) (if gtb x zero then 1 else 0)) (fun a => i <- argmax a ;; lnth (l_classes c) i)). Qed.

  Lemma decision_width : forall (c : linear A L) X s, decision_function c X = Ok s ->
    match s with D1 _ => n_scores c = 1 | D2 M => n_scores c <> 1 /\ Forall (fun r => length r = n_scores c) M end.
  Proof.
    intros c X s E. unfold decision_function in E. nb E X' E1. nb E nf E2. nb E w E3. nb E u E4. nb E l E5. nb E sc E6. nb E ws E7.
    assert (W : Forall (fun r => length r = n_scores c) sc).
    { apply Forall_forall. intros r Hr. destruct (mapM_in _ _ _ _ E6 Hr) as (x & _ & Ex). eapply row_scores_len; eauto. }
    assert (W2 : ws = Some (Z.of_nat (n_scores c))).
    { destruct sc as [|r sc]; [discriminate|]. rewrite (shape1_wide (r :: sc) (n_scores c)) in E7; [congruence|]. split; [discriminate|auto]. }
    subst ws. destruct (Z.of_nat (n_scores c)) as [|[p|p|]|p] eqn:EZ; try (injection E as <-; split; [lia|auto]).
    nb E r F. injection E as <-. lia.
  Qed.
  Lemma proba_lr : forall c : linear A L, num_proba (predict_proba_lr c).
  Proof.
    intro c. apply num_pred_width with (w := if (n_scores c =? 1)%nat then 2 else n_scores c).
    - eapply num_pred_ext; [|apply (decision_then c (fun x => a <- expit x ;; Ok [sub one a; a]) (fun r => p <- mapM expit r ;; normalise p))].
      intro X. unfold predict_proba_lr. apply oke_bind_r. intros [l|M] _; [apply oke_refl|apply oke_comp].
    - intros X P E. unfold predict_proba_lr in E. nb E s F. apply decision_width in F. destruct s as [l|M].
      + rewrite F, Nat.eqb_refl. apply Forall_forall. intros r Hr. destruct (mapM_in _ _ _ _ E Hr) as (x & _ & Ex). nb Ex a G. injection Ex as <-. auto.
      + destruct F as [F1 F2]. apply Nat.eqb_neq in F1. rewrite F1. nb E Q G.
        apply Forall_forall. intros r Hr. destruct (mapM_in _ _ _ _ E Hr) as (y & Hy & Ey). apply mapM_length in Ey. rewrite Ey.
        destruct (mapM_in _ _ _ _ G Hy) as (x & Hx & Ex). apply mapM_length in Ex. rewrite Ex. apply (Forall_In _ _ _ F2 Hx).
  Qed.
  Lemma sfmax_len : forall (l r : list A), sfmax l = Ok r -> length r = length l.
  Proof. intros l r E. unfold sfmax in E. nb E es F. apply mapM_length in F. apply mapM_length in E. congruence. Qed.
  Lemma proba_softmax : forall c : linear A L, num_proba (fun X => s <- decision_function c X ;; match s with D1 l => mapM (fun a => sfmax [opp a; a]) l | D2 M => mapM sfmax M end).
  Proof.
    intro c. apply num_pred_width with (w := if (n_scores c =? 1)%nat then 2 else n_scores c).
    - apply (decision_then c (fun a => sfmax [opp a; a]) sfmax).
    - intros X P E. nb E s F. apply decision_width in F. destruct s as [l|M].
      + rewrite F, Nat.eqb_refl. apply Forall_forall. intros r Hr. destruct (mapM_in _ _ _ _ E Hr) as (x & _ & Ex). apply sfmax_len in Ex. auto.
      + destruct F as [F1 F2]. apply Nat.eqb_neq in F1. rewrite F1.
        apply Forall_forall. intros r Hr. destruct (mapM_in _ _ _ _ E Hr) as (y & Hy & Ey). apply sfmax_len in Ey. rewrite Ey. apply (Forall_In _ _ _ F2 Hy).
  Qed.
  Lemma num_proba_err : forall e, num_proba (fun _ => Err e).
  Proof.
    intro e. split; [discriminate|]. split.
    - intro c. exists 0, (fun _ => Err e). split; [discriminate|]. intros M [N _]. apply oke_fails. auto.
    - intros sz dt. exists 0, (fun _ => Err e). split; [discriminate|]. intros R N. apply oke_fails. auto.
  Qed.
  Lemma logistic_proba : forall c : linear A L, num_proba (logistic_predict_proba c).
  Proof.
    intro c. unfold logistic_predict_proba. destruct (is_ovr c) as [[|]|e] eqn:EO; cbn [bind].
    - apply proba_lr.
    - apply proba_softmax.
    - apply num_proba_err.
  Qed.
  Lemma sgd_proba : forall c : linear A L, num_proba (sgd_predict_proba_inner c).
  Proof.
    intro c. unfold sgd_predict_proba_inner. destruct (getattr (l_loss c)) as [s|e]; cbn [bind]; [|apply num_proba_err].
    destruct (str_eqb s (lit "log")); [apply proba_lr|apply num_proba_err].
  Qed.
  Lemma sgd_log_proba : forall c : linear A L, num_proba (sgd_predict_log_proba c).
  Proof.
    intro c. unfold sgd_predict_log_proba, sgd_predict_proba. destruct (check_proba c) as [u|e]; cbn [bind]; [|apply num_proba_err].
    apply log_proba_rows. apply sgd_proba.
  Qed.
End Leaves.
