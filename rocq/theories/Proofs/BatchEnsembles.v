(** Bagging and gradient boosting, row by row. *)
From Coq Require Import String Lia.
From Verif Require Import Model.Py Model.Arith Model.Utils Model.Base Model.Tree Model.Ensemble.
From Verif Require Import Proofs.Lib Proofs.Rows Proofs.BatchModels Proofs.BatchModels2 Proofs.Boosting.

Section Ensembles.
  Context {A : arith} {L : Type}.

  (** [f] treats rows satisfying [P] one by one and returns lists of one width. *)
  Definition fam {S} (P : S -> Prop) (f : list S -> res (list (list A))) : Prop :=
    exists w (g : S -> res (list A)), (forall x r, P x -> g x = Ok r -> length r = w) /\
      forall l, l <> [] -> Forall P l -> oke (f l) (mapM g l).

  Lemma num_proba_fam : forall f : arr A -> res (list (list A)), num_proba f <->
    (forall t, f NotList <> Ok t) /\ (forall c, fam (fun r : list A => length r = c) (fun M => f (ll M))) /\
    (forall sz dt, fam (fun _ : dict Z A => True) (fun R => f (Sp R sz dt))).
  Proof.
    intro f. unfold num_proba, fam, wide. split; intros (H1 & H2 & H3); (split; [exact H1|split]).
    - intro c. destruct (H2 c) as (w & g & W & G). exists w, g. split; [exact W|]. intros; apply G; auto.
    - intros sz dt. destruct (H3 sz dt) as (w & g & W & G). exists w, g. split; [eauto|]. intros; apply G; auto.
    - intro c. destruct (H2 c) as (w & g & W & G). exists w, g. split; [exact W|]. intros M [N HM]; apply G; auto.
    - intros sz dt. destruct (H3 sz dt) as (w & g & W & G). exists w, g. split; [eauto|]. intros R N; apply G; auto.
      apply Forall_forall; auto.
  Qed.
  Lemma fam_ext : forall {S} (P : S -> Prop) f f', (forall l, l <> [] -> Forall P l -> oke (f l) (f' l)) -> fam P f' -> fam P f.
  Proof. intros S P f f' E (w & g & W & G). exists w, g. split; [exact W|]. intros l N H. eapply oke_trans; [apply E; auto|auto]. Qed.
  Lemma fam_err : forall {S} (P : S -> Prop) e, fam P (fun _ => Err e).
  Proof. intros S P e. exists 0, (fun _ => Err e). split; [discriminate|]. intros l N _. apply oke_fails; auto. Qed.
  Lemma fam_then : forall {S} (P : S -> Prop) f h, (forall w, exists w', forall a r, length a = w -> h a = Ok r -> length r = w') ->
    fam P f -> fam P (fun l => p <- f l ;; mapM h p).
  Proof.
    intros S P f h HW (w & g & W & G). destruct (HW w) as (w' & W'). exists w', (fun x => r <- g x ;; h r). split.
    - intros x r Hx E. nb E y F. eauto.
    - intros l N H. eapply oke_trans; [apply oke_bind_l; apply G; auto|]. apply oke_comp.
  Qed.
  Lemma fam_width : forall {S} (P : S -> Prop) f w g, (forall x r, P x -> g x = Ok r -> length r = w) -> (forall l, l <> [] -> Forall P l -> oke (f l) (mapM g l)) ->
    forall l (M : list (list A)), l <> [] -> Forall P l -> mapM g l = Ok M -> wide w M /\ length M = length l.
  Proof.
    intros S P f w g W G l M N H E. split; [|eapply mapM_length; eauto]. eapply wide_mapM; [exact N| |exact E].
    intros x r Hx. apply W. exact (Forall_In _ _ _ H Hx).
  Qed.
  Lemma zip_mapM : forall {S T U R} (g : S -> res T) (h : S -> res U) (op : T -> U -> R) l,
    oke (p <- mapM g l ;; q <- mapM h l ;; Ok (zip_with op p q)) (mapM (fun x => a <- g x ;; b <- h x ;; Ok (op a b)) l).
  Proof.
    intros S T U R g h op l t. revert t. induction l as [|x l IH]; intro t; [cbn; tauto|]. cbn [mapM]. split.
    - intro E. nb E p F. nb E q F'. injection E as <-. nb F a F1. nb F p' F2. injection F as <-. nb F' b F3. nb F' q' F4. injection F' as <-.
      rewrite F1, F3. cbn [bind zip_with]. assert (K := proj1 (IH (zip_with op p' q'))). rewrite F2, F4 in K. rewrite K; auto.
    - intro E. nb E y F. nb E ys F'. injection E as <-. nb F a F1. nb F b F2. injection F as <-. apply IH in F'.
      nb F' p F3. nb F' q F4. injection F' as <-. rewrite F1, F2, F3, F4. auto.
  Qed.
  Lemma fam_operate : forall {S} (P : S -> Prop) f f' op, fam P f -> fam P f' ->
    fam P (fun l => p <- f l ;; q <- f' l ;; operate_2d (ll p) (ll q) op).
  Proof.
    intros S P f f' op (w & g & W & G) (w' & g' & W' & G').
    destruct (Nat.eqb_spec w w') as [<-|ND].
    - exists w, (fun x => a <- g x ;; b <- g' x ;; Ok (zip_with op a b)). split.
      + intros x r Hx E. nb E a F. nb E b F'. injection E as <-. rewrite zip_with_length, (W _ _ Hx F), (W' _ _ Hx F'). apply Nat.min_id.
      + intros l N H. eapply oke_trans; [|apply zip_mapM]. apply oke_bind; [auto|]. intros p Ep. apply oke_bind; [auto|]. intros q Eq.
        destruct (fam_width P f w g W G l p N H Ep) as [W1 L1]. destruct (fam_width P f' w g' W' G' l q N H Eq) as [W2 L2].
        rewrite (operate_wide p q w w) by congruence. rewrite Nat.eqb_refl. apply oke_refl.
    - exists 0, (fun _ => Err ValueError). split; [discriminate|]. intros l N H.
      eapply oke_trans; [|apply oke_fails with (e := ValueError); auto]. intro t. split; [|discriminate]. intro E. nb E p F. nb E q F'.
      apply (G l N H) in F. apply (G' l N H) in F'.
      destruct (fam_width P f w g W G l p N H F) as [W1 L1]. destruct (fam_width P f' w' g' W' G' l q N H F') as [W2 L2].
      rewrite (operate_wide p q w w') in E by congruence. apply Nat.eqb_neq in ND. rewrite ND in E. discriminate.
  Qed.
  Lemma fam_fold : forall {S} (P : S -> Prop) (m : nat -> list S -> res (list (list A))) op, (forall i, fam P (m i)) ->
    forall idxs f0, fam P f0 ->
    fam P (fun l => p0 <- f0 l ;; foldM (fun acc i => q <- m i l ;; operate_2d (ll acc) (ll q) op) idxs p0).
  Proof.
    intros S P m op Hm idxs; induction idxs as [|i idxs IH]; intros f0 H0; cbn [foldM].
    - eapply fam_ext; [|exact H0]. intros l _ _. rewrite bind_ret. apply oke_refl.
    - eapply fam_ext; [|apply (IH (fun l => p <- f0 l ;; q <- m i l ;; operate_2d (ll p) (ll q) op)); apply fam_operate; auto].
      intros l _ _. cbv beta. rewrite bind_assoc. apply oke_refl.
  Qed.

  (** Bagging. *)
  Lemma sliced : forall {S} (P : S -> Prop) (item_of : S -> item A) fs (p : arr A -> res (list (list A))) (X : list S -> arr A),
    (forall l, items (X l) = Ok (map item_of l)) -> num_proba p -> fam P (fun l => X' <- feat_slice (X l) (Some fs) ;; p X').
  Proof.
    intros S P item_of fs p X HX (_ & Hp & _). destruct (Hp (length fs)) as (w & g & W & G).
    exists w, (fun x => r <- mapM (item_get (item_of x)) fs ;; g r). split.
    - intros x r _ E. nb E y F. apply mapM_length in F. eauto.
    - intros l N _. cbn [feat_slice]. rewrite HX. cbn [bind]. rewrite bind_assoc. cbn [bind]. rewrite mapM_map.
      eapply oke_trans; [|apply oke_comp]. apply oke_bind_r. intros M EM. apply G.
      eapply wide_mapM; [exact N| |exact EM]. intros x r _ Ex. cbn beta in Ex. apply mapM_length in Ex. auto.
  Qed.
  Lemma member_fam : forall (b : bagging A L), Forall num_proba (b_members b) -> forall idx,
    (forall c, fam (fun r : list A => length r = c) (fun M => member_proba b (ll M) idx)) /\
    (forall sz dt, fam (fun _ : dict Z A => True) (fun R => member_proba b (Sp R sz dt) idx)).
  Proof.
    intros b Hb idx. unfold member_proba. destruct (lnth (b_members b) idx) as [p|e] eqn:EP; cbn [bind].
    2: { split; intros; apply fam_err. }
    assert (Hp : num_proba p) by (apply (Forall_In _ _ _ Hb); apply lnth_ok in EP; eapply nth_error_In; eauto).
    destruct (get_feats b idx) as [[fs|]|e] eqn:EF; cbn [bind].
    - split.
      + intro c. apply (sliced _ Ls fs p ll); auto.
      + intros sz dt. apply (sliced _ Di fs p (fun R => Sp R sz dt)); auto.
    - apply num_proba_fam in Hp. cbn [feat_slice bind]. split; apply Hp.
    - split; intros; apply fam_err.
  Qed.
  Lemma member_notlist : forall (b : bagging A L), Forall num_proba (b_members b) -> forall idx t, member_proba b NotList idx <> Ok t.
  Proof.
    intros b Hb idx t E. unfold member_proba in E. nb E p F. nb E f F1. nb E X F2. destruct f as [fs|]; [discriminate|]. injection F2 as <-.
    apply lnth_ok, nth_error_In in F. destruct (Forall_In _ _ _ Hb F) as [H _]. eapply H; eauto.
  Qed.
  Lemma bagging_proba : forall b : bagging A L, Forall num_proba (b_members b) -> num_proba (bagging_predict_proba b).
  Proof.
    intros b Hb. apply num_proba_fam. split; [|split].
    - intros t E. unfold bagging_predict_proba in E. nb E p F. eapply member_notlist; eauto.
    - intro c. unfold bagging_predict_proba.
      eapply fam_ext; [|apply fam_then with (h := mapM (fun x => div x (ofnat (length (b_members b)))));
                        [|apply (fam_fold _ (fun idx M => member_proba b (ll M) idx) add) with (f0 := fun M => member_proba b (ll M) 0) (idxs := seq 1 (length (b_members b) - 1))]].
      + intros l _ _. cbv beta. rewrite bind_assoc. apply oke_bind_r. intros p0 _. apply oke_bind_r. intros p _. rewrite apply_2d_rows. apply oke_refl.
      + intro w. exists w. intros a r <- E. eapply mapM_length; eauto.
      + intro i. apply (member_fam b Hb i).
      + apply (member_fam b Hb 0).
    - intros sz dt. unfold bagging_predict_proba.
      eapply fam_ext; [|apply fam_then with (h := mapM (fun x => div x (ofnat (length (b_members b)))));
                        [|apply (fam_fold _ (fun idx R => member_proba b (Sp R sz dt) idx) add) with (f0 := fun R => member_proba b (Sp R sz dt) 0) (idxs := seq 1 (length (b_members b) - 1))]].
      + intros l _ _. cbv beta. rewrite bind_assoc. apply oke_bind_r. intros p0 _. apply oke_bind_r. intros p _. rewrite apply_2d_rows. apply oke_refl.
      + intro w. exists w. intros a r <- E. eapply mapM_length; eauto.
      + intro i. apply (member_fam b Hb i).
      + apply (member_fam b Hb 0).
  Qed.
  Lemma bagging_log : forall b : bagging A L, Forall num_proba (b_members b) -> num_proba (bagging_predict_log_proba b).
  Proof. intros b Hb. apply log_proba_2d. apply bagging_proba; auto. Qed.
  Lemma bagging_pred : forall b : bagging A L, Forall num_proba (b_members b) -> num_pred (bagging_predict b).
  Proof.
    intros b Hb. eapply num_pred_ext; [|apply (num_pred_then (bagging_predict_proba b) (fun a => i <- argmax a ;; lnth (b_classes b) i)); apply bagging_proba; auto].
    intro X. unfold bagging_predict. apply oke_bind_r. intros p _. apply oke_comp.
  Qed.

  (** Gradient boosting. *)
  Definition col_val (g : gb A L) (x : list A) (k : nat) : res A :=
    foldM (fun a row => v <- (t <- lnth row k ;; leaf_of t x) ;; Ok (add a (mul v (gb_lr g)))) (gb_estimators g) zero.
  Lemma gb_column_rows : forall (g : gb A L) (M : list (list A)) k, M <> [] ->
    oke (gb_column g (ll M) (length M) k) (mapM (fun x => col_val g x k) M).
  Proof.
    intros g M k N. unfold gb_column.
    rewrite (foldM_range_nth (gb_estimators g) (fun col row =>
       t <- lnth row k ;; preds <- reg_predict t (ll M) ;;
       mapM (fun i => c <- lnth col i ;; p <- lnth preds i ;; Ok (add c (mul p (gb_lr g)))) (range (length preds)))).
    eapply oke_trans; [|apply oke_fold_rep with (op := fun c q => add c (mul q (gb_lr g))) (h := fun row x => t <- lnth row k ;; leaf_of t x)].
    apply oke_foldM with (P := fun col => length col = length M).
    - apply repeat_length.
    - intros col row HC _.
      eapply oke_trans; [|apply oke_bind_l; apply oke_hoist; auto]. rewrite bind_assoc. apply oke_bind_r. intros t _.
      apply oke_bind; [apply reg_rows; auto|]. intros p Ep. apply mapM_length in Ep. rewrite mapM_pairs by congruence. apply oke_refl.
    - intros col row col' HC _ E. nb E p F. injection E as <-. apply mapM_length in F. rewrite zip_with_length. lia.
  Qed.
  Lemma init_binary_fam : forall {S} (P : S -> Prop) (f : list S -> res (list (list A))) (h : A -> A), fam P f -> fam P (fun l => p <- f l ;; init_binary h p).
  Proof.
    intros S P f h H.
    eapply fam_ext; [|apply (fam_then P f (fun a => c <- (v <- lnth a 1 ;; Ok (clip v EPS (sub one EPS))) ;; q <- div c (sub one c) ;; v <- safe_log q ;; Ok [h v])); [|exact H]].
    - intros l _ _. apply oke_bind_r. intros p _. unfold init_binary. apply oke_comp.
    - intro w. exists 1. intros a r _ E. nb E c F. nb E q F'. nb E v F''. injection E as <-. auto.
  Qed.
  Lemma gb_init_fam : forall (g : gb A L), (match gb_init g with Some f => num_proba f | None => True end) -> forall c,
    fam (fun r : list A => length r = c) (fun M => gb_raw_init g (ll M)).
  Proof.
    intros g Hi c.
    apply fam_ext with (f' := if (Z.of_nat c =? gb_nfeat g)%Z then
        match gb_init g with None => fun _ => Err AttributeError | Some init => fun M => get_init_raw (gb_loss g) (ll M) init end else fun _ => Err ValueError).
    - intros M N HM. unfold gb_raw_init. rewrite check_wide by auto. cbn [bind]. rewrite (shape1_wide M c) by (split; auto). cbn [bind].
      destruct (Z.of_nat c =? gb_nfeat g)%Z; cbn [guard bind]; [|apply oke_refl]. destruct (gb_init g); apply oke_refl.
    - destruct (Z.of_nat c =? gb_nfeat g)%Z; [|apply fam_err]. destruct (gb_init g) as [init|]; [|apply fam_err].
      apply num_proba_fam in Hi. destruct Hi as (_ & Hi & _). specialize (Hi c). unfold get_init_raw. destruct (gb_loss g) as [n| |].
      + eapply fam_ext; [|apply (fam_then _ (fun M => init (ll M)) (mapM (fun x => safe_log (clip x EPS (sub one EPS))))); [|exact Hi]].
        * intros l _ _. apply oke_bind_r. intros p _. rewrite apply_2d_rows. apply oke_refl.
        * intro w. exists w. intros a r <- E. eapply mapM_length; eauto.
      + apply init_binary_fam. auto.
      + apply init_binary_fam. auto.
  Qed.
  Lemma gb_raw_fam : forall (g : gb A L), (match gb_init g with Some f => num_proba f | None => True end) -> forall c,
    fam (fun r : list A => length r = c) (fun M => gb_raw_predict g (ll M)).
  Proof.
    intros g Hi c. destruct (lnth (gb_estimators g) 0) as [e0|e] eqn:E0.
    2: { apply fam_ext with (f' := fun _ => Err ValueError); [|apply fam_err]. intros M _ _. unfold gb_raw_predict. rewrite E0.
         intro t. split; [|discriminate]. intro E. nb E i F. discriminate. }
    destruct e0 as [|t0 e0].
    { apply fam_ext with (f' := fun _ => Err ValueError); [|apply fam_err]. intros M _ _. unfold gb_raw_predict. rewrite E0.
      intro t. split; [|discriminate]. intro E. nb E i F. change (operate_2d (ll i) (@Arr A []) add = Ok t) in E.
      unfold operate_2d in E. cbn [issparse ll orb] in E. nb E s F1. nb E s' F2. discriminate. }
    eapply fam_ext; [|apply (fam_operate _ (fun M => gb_raw_init g (ll M)) (mapM (fun x => mapM (col_val g x) (range (length (t0 :: e0))))) add); [apply gb_init_fam; auto|]].
    - intros M N HM. unfold gb_raw_predict. apply oke_bind_r. intros i _. rewrite E0. cbn [bind].
      eapply oke_trans; [|apply oke_bind_l; apply (oke_zipstar (fun k x => col_val g x k)); discriminate].
      rewrite bind_assoc. cbn [bind]. apply oke_bind.
      + apply oke_mapM. intros k _. rewrite (shape0_wide M c) by (split; auto). cbn [bind]. rewrite Nat2Z.id. apply gb_column_rows. auto.
      + intros P _. rewrite transpose_ll. apply oke_refl.
    - exists (length (t0 :: e0)), (fun x => mapM (col_val g x) (range (length (t0 :: e0)))). split; [|intros; apply oke_refl].
      intros x r _ E. apply mapM_length in E. unfold range in E. rewrite seq_length in E. auto.
  Qed.
  Definition pair_of (f : A -> res A) (r : list A) : res (list A) := v <- lnth r 0 ;; p <- f v ;; Ok [sub one p; p].
  Lemma binary_rows : forall (f : A -> res A) w raw, wide w raw ->
    oke (binary_proba f raw) (if (w =? 1)%nat then mapM (pair_of f) raw else Err TypeError).
  Proof.
    intros f w raw H. unfold binary_proba. rewrite (shape1_wide _ _ H). cbn [bind]. destruct (Nat.eqb_spec w 1) as [->|ND].
    - change (Z.of_nat 1) with 1%Z. cbv iota. rewrite (ravel_single _ H). cbn [bind]. rewrite singles by auto.
      unfold pair_of. apply oke_eq. rewrite (mapM_ext (fun r => v <- lnth r 0 ;; p <- f v ;; Ok [sub one p; p]) (fun r => p <- (v <- lnth r 0 ;; f v) ;; Ok [sub one p; p]))
        by (intros; rewrite bind_assoc; reflexivity).
      rewrite <- oke_comp_map. apply bind_ext. intros p1 _. rewrite transpose_ll. f_equal. cbn [zipstar].
      induction p1 as [|x p1 IH]; [reflexivity|]. cbn [map zip_with]. rewrite IH. auto.
    - destruct (Z.of_nat w) as [|[p|p|]|p] eqn:EZ; try apply oke_refl. lia.
  Qed.
  Lemma zip_then : forall {S T U} (h : S -> res T) (k : S -> T -> res U) l,
    oke (p <- mapM h l ;; mapM (fun q => k (fst q) (snd q)) (combine l p)) (mapM (fun x => s <- h x ;; k x s) l).
  Proof.
    intros S T U h k l. induction l as [|x l IH]; [apply oke_refl|]. intro t. cbn [mapM]. split.
    - intro E. nb E p F. nb F a F1. nb F p' F2. injection F as <-. cbn [combine mapM fst snd] in E. nb E y F3. nb E ys F4. injection E as <-.
      rewrite F1. cbn [bind]. rewrite F3. cbn [bind]. assert (K := proj1 (IH ys)). rewrite F2 in K. rewrite (K F4). auto.
    - intro E. nb E y F. nb E ys F'. injection E as <-. nb F a F1. apply IH in F'. nb F' p F2. rewrite F1, F2. cbn [bind combine mapM fst snd].
      rewrite F, F'. auto.
  Qed.
  Lemma raw_proba_fam : forall {S} (P : S -> Prop) (f : list S -> res (list (list A))) ls, fam P f -> fam P (fun l => raw <- f l ;; raw_to_proba ls raw).
  Proof.
    intros S P f ls H.
    assert (HB : forall h : A -> res A, fam P (fun l => raw <- f l ;; binary_proba h raw)).
    { intro h. destruct H as (w & g & W & G). destruct (w =? 1)%nat eqn:E1.
      - exists 2, (fun x => r <- g x ;; pair_of h r). split.
        + intros x r Hx E. nb E y F. unfold pair_of in E. nb E v F1. nb E p F2. injection E as <-. auto.
        + intros l N HP. eapply oke_trans; [|apply oke_comp]. apply oke_bind; [auto|]. intros raw ER.
          destruct (fam_width P f w g W G l raw N HP ER) as [W1 _]. eapply oke_trans; [apply (binary_rows h w); auto|]. rewrite E1. apply oke_refl.
      - exists 0, (fun _ => Err ValueError). split; [discriminate|]. intros l N HP.
        eapply oke_trans; [|apply oke_fails with (e := ValueError); auto]. intro t. split; [|discriminate]. intro E. nb E raw F.
        apply (G l N HP) in F. destruct (fam_width P f w g W G l raw N HP F) as [W1 _]. apply (binary_rows h w) in E; auto. rewrite E1 in E. discriminate. }
    destruct ls as [n| |]; [|exact (HB _)|exact (HB _)]. cbn [raw_to_proba].
    eapply fam_ext; [|apply (fam_then P f (fun r => ls <- (ex <- mapM safe_exp r ;; safe_log (psum ex)) ;; mapM (fun i => v <- lnth r i ;; safe_exp (sub v ls)) (range n))); [|exact H]].
    2: { intro w. exists n. intros a r _ E. nb E s F. apply mapM_length in E. unfold range in E. rewrite seq_length in E. auto. }
    intros l N HP. apply oke_bind_r. intros raw _.
    assert (EQ : forall B (k : list A -> res B),
      (ex <- apply_2d (ll raw) safe_exp ;; sums <- apply_axis_2d (ll ex) (fun r => Ok (psum r)) 1 ;; lse <- mapM safe_log sums ;; k lse) =
      (ex <- mapM (mapM safe_exp) raw ;; lse <- mapM (fun r => safe_log (psum r)) ex ;; k lse)).
    { intros B k. rewrite apply_2d_rows. apply bind_ext. intros ex _. unfold apply_axis_2d. cbn [issparse ll andb]. cbn [Z.eqb Pos.eqb items ll bind].
      rewrite mapM_map. rewrite (mapM_ext _ (fun r => Ok (psum r))) by (intros; reflexivity). rewrite mapM_Ok. cbn [bind]. rewrite mapM_map. reflexivity. }
    rewrite EQ.
    rewrite <- bind_assoc.
    eapply oke_trans; [apply oke_bind_l; apply (oke_comp (mapM safe_exp) (fun r => safe_log (psum r)))|].
    eapply oke_trans; [|apply (zip_then (fun r => ex <- mapM safe_exp r ;; safe_log (psum ex)) (fun r s => mapM (fun i => v <- lnth r i ;; safe_exp (sub v s)) (range n)))].
    apply oke_bind_r. intros lse EL. apply mapM_length in EL.
    rewrite <- (mapM_range_nth2 raw lse (fun r s => mapM (fun i => v <- lnth r i ;; safe_exp (sub v s)) (range n))) by auto.
    apply oke_eq. apply mapM_ext. intros i Hi. apply in_seq in Hi.
    destruct (lnth_lt raw i ltac:(lia)) as (r & E1 & _). destruct (lnth_lt lse i ltac:(lia)) as (s & E2 & _). rewrite E1, E2. cbn [bind].
    reflexivity.
  Qed.
  Lemma gb_proba : forall g : gb A L, (match gb_init g with Some f => num_proba f | None => True end) -> num_proba (gb_predict_proba g).
  Proof.
    intros g Hi. apply num_proba_fam. split; [|split].
    - intros t E. unfold gb_predict_proba, gb_raw_predict, gb_raw_init in E. discriminate.
    - intro c. apply (raw_proba_fam _ (fun M => gb_raw_predict g (ll M)) (gb_loss g)). apply gb_raw_fam. auto.
    - intros sz dt. apply (fam_err (fun _ : dict Z A => True) ValueError).
  Qed.
  Lemma gb_log : forall g : gb A L, (match gb_init g with Some f => num_proba f | None => True end) -> num_proba (gb_predict_log_proba g).
  Proof. intros g Hi. apply log_proba_2d. apply gb_proba; auto. Qed.
  Lemma gb_pred : forall g : gb A L, (match gb_init g with Some f => num_proba f | None => True end) -> num_pred (gb_predict g).
  Proof. intros g Hi. apply (num_pred_then (gb_predict_proba g) (fun a => i <- argmax a ;; lnth (gb_classes g) i)). apply gb_proba; auto. Qed.
End Ensembles.
