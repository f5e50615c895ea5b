(** Naive Bayes, xgboost, bagging and gradient boosting, row by row. *)
From Coq Require Import String Lia.
From Verif Require Import Model.Py Model.Arith Model.Utils Model.Base Model.Tree Model.Ensemble Model.Xgb Model.Linear
  Model.NaiveBayes Model.Dummy.
From Verif Require Import Proofs.Lib Proofs.Rows Proofs.BatchModels.

Section Models.
  Context {A : arith} {L : Type}.

  (** Dense-only methods: sparse input is refused. *)
  Lemma dense_proba : forall (f : arr A -> res (list (list A))),
    (forall t, f NotList <> Ok t) -> (forall R sz dt t, f (Sp R sz dt) <> Ok t) ->
    (forall c, exists w (g : list A -> res (list A)), (forall x r, length x = c -> g x = Ok r -> length r = w) /\ forall M, wide c M -> oke (f (ll M)) (mapM g M)) ->
    num_proba f.
  Proof.
    intros f H1 H2 H3. split; [exact H1|]. split; [exact H3|]. intros sz dt. exists 0, (fun _ => Err ValueError).
    split; [discriminate|]. intros R N t. split; [intro E; destruct (H2 _ _ _ _ E)|]. intro E. destruct R; [congruence|discriminate].
  Qed.

  (** Naive Bayes. *)
  Lemma zip_logs : forall (h : list A -> res A) (k : list A -> A -> list A) J,
    oke (lp <- mapM h J ;; Ok (zip_with k J lp)) (mapM (fun a => s <- h a ;; Ok (k a s)) J).
  Proof.
    intros h k J. apply oke_eq. induction J as [|a J IH]; [reflexivity|]. cbn [mapM]. destruct (h a); cbn [bind]; [|reflexivity].
    rewrite <- IH. destruct (mapM h J); reflexivity.
  Qed.
  Definition ok_nb (m : nb A L) : Prop := match m with Gaussian g => g_classes g <> [] | _ => True end.
  Lemma range_ne : forall {T} (l : list T), l <> [] -> range (length l) <> [].
  Proof. intros T [|x l] H; [congruence|discriminate]. Qed.
  Lemma jll_rows : forall m, ok_nb m -> exists w (g : item A -> res (list A)), (forall x r, g x = Ok r -> length r = w) /\
    forall l, l <> [] -> oke (jll m (Arr l)) (mapM g l).
  Proof.
    intros [g|d|d] H.
    - cbn [ok_nb] in H.
      set (h := fun i a => p <- lnth (g_prior g) i ;; jointi <- safe_log p ;; sg <- lnth (g_sigma g) i ;; n <- n_ij sg ;;
                           q <- sq_terms (g_theta g) (g_sigma g) i a ;; Ok (add (sub n (mul nb_half (psum q))) jointi)).
      exists (length (g_classes g)), (fun x => mapM (fun i => h i x) (range (length (g_classes g)))). split.
      + intros x r E. apply mapM_length in E. unfold range in E. rewrite seq_length in E. auto.
      + intros l N. unfold jll. destruct (g_classes g) as [|c cs] eqn:EC; [congruence|]. rewrite <- EC. cbn [items].
        unfold gaussian_jll. eapply oke_trans; [|apply oke_zipstar; rewrite EC; discriminate].
        eapply oke_trans; [apply oke_bind_l with (r' := mapM (fun i => mapM (h i) l) (range (length (g_classes g))))|].
        * apply oke_mapM. intros i _. unfold h.
          eapply oke_trans; [|apply oke_hoist; auto]. apply oke_bind_r. intros p _.
          eapply oke_trans; [|apply oke_hoist; auto]. apply oke_bind_r. intros j _.
          eapply oke_trans; [|apply oke_hoist; auto]. apply oke_bind_r. intros sg _.
          eapply oke_trans; [|apply oke_hoist; auto]. apply oke_bind_r. intros n _.
          rewrite <- oke_comp_map. cbv zeta. apply oke_bind_r. intros J _. rewrite map_map. apply oke_refl.
        * apply oke_bind_r. intros J _. rewrite transpose_ll. apply oke_refl.
    - exists (length (d_classes d)), (multinomial_row d). split.
      + intros x r E. unfold multinomial_row in E. nb E p F. apply mapM_length in E. unfold range in E. rewrite seq_length in E. auto.
      + intros l N. apply oke_refl.
    - exists (if (length (d_classes d) =? 1)%nat then 1 else length (d_log_prob d)),
        (fun x => j <- dot x (d_log_prob d) ;; if (length (d_classes d) =? 1)%nat then a <- lnth j 0 ;; b <- lnth (d_log_prior d) 0 ;; Ok [add a b] else Ok j).
      split.
      + intros x r E. nb E j F. unfold dot in F. apply mapM_length in F. destruct (length (d_classes d) =? 1)%nat.
        * nb E a G. nb E b G'. injection E as <-. auto.
        * injection E as <-. auto.
      + intros l N. cbn [jll items bind]. unfold complement_jll. eapply oke_trans; [|apply oke_comp]. apply oke_bind_r.
        intros J _. destruct (length (d_classes d) =? 1)%nat; [apply oke_refl|]. rewrite (mapM_Ok (fun x => x)), map_id. apply oke_refl.
  Qed.
  Lemma jll_then : forall {T} m (h : list A -> res T), ok_nb m -> num_pred (fun X => X' <- check_array X HError ;; J <- jll m X' ;; mapM h J).
  Proof.
    intros T m h H. destruct (jll_rows m H) as (w & g & W & G). split; [discriminate|]. split.
    - intro c. exists (fun x => r <- g (Ls x) ;; h r). intros M [N _]. rewrite check_wide by auto. cbn [bind].
      eapply oke_trans; [apply oke_bind_l; apply G; destruct M; [congruence|discriminate]|].
      eapply oke_trans; [apply oke_comp|]. rewrite mapM_map. apply oke_refl.
    - intros sz dt. exists (fun _ => Err ValueError). intros R N. apply oke_fails. auto.
  Qed.
  Lemma nb_pred : forall m, ok_nb m -> num_pred (nb_predict m).
  Proof. intros m H. apply (jll_then m (fun a => i <- argmax a ;; lnth (nb_classes m) i) H). Qed.
  Lemma nb_log : forall m, ok_nb m -> num_proba (nb_predict_log_proba m).
  Proof.
    intros m H. destruct (jll_rows m H) as (w & g & W & G). apply dense_proba; [discriminate|discriminate|].
    intro c. exists w, (fun x => r <- g (Ls x) ;; s <- logsumexp r ;; Ok (map (fun v => sub v s) r)). split.
    - intros x r _ E. nb E j F. nb E s F'. injection E as <-. rewrite map_length. eauto.
    - intros M [N _]. unfold nb_predict_log_proba. rewrite check_wide by auto. cbn [bind].
      eapply oke_trans; [|rewrite <- (mapM_map Ls (fun x => r <- g x ;; s <- logsumexp r ;; Ok (map (fun v => sub v s) r))); apply oke_comp].
      apply oke_bind; [apply G; destruct M; [congruence|discriminate]|]. intros J _. apply zip_logs.
  Qed.
  Lemma nb_proba : forall m, ok_nb m -> num_proba (nb_predict_proba m).
  Proof.
    intros m H. apply num_proba_then; [|apply nb_log; auto]. intro w. exists w. intros a r <- E. eapply mapM_length; eauto.
  Qed.

  (** xgboost. *)
  Lemma zrange_lget : forall {T R} (P : list T) n (k : T -> res R), length P = Z.to_nat n ->
    mapM (fun j => p <- lget P j ;; k p) (zrange 0 n) = mapM k P.
  Proof.
    intros T R P n k H. rewrite <- (mapM_range_nth P k). unfold zrange. rewrite Z.sub_0_r, <- H, mapM_map. apply mapM_ext.
    intros i _. rewrite Z.add_0_l, lget_nat. auto.
  Qed.
  Lemma reg_rows : forall (t : tree A L) (M : list (list A)), M <> [] ->
    oke (reg_predict t (ll M)) (mapM (fun x => nd <- get_leaf_node t (Ls x) ;; leaf_value t nd) M).
  Proof. intros t M N. unfold reg_predict. rewrite leaves_ll by auto. rewrite mapM_map. apply oke_comp. Qed.
  Definition leaf_of (t : tree A L) (x : list A) : res A := nd <- get_leaf_node t (Ls x) ;; leaf_value t nd.

  Lemma xgb_proba : forall g : xgb A L, num_proba (xgb_predict_proba g).
  Proof.
    intro g. apply dense_proba; [discriminate|discriminate|]. intro c.
    set (tr := fun cls e => row <- lget (xg_estimators g) e ;; match row with One _ => Err TypeError | Many l => lget l cls end).
    set (g1 := fun x => r <- mapM (fun cls => foldM (fun a e => v <- (t <- tr cls e ;; leaf_of t x) ;; Ok (add a v)) (zrange 0 (xg_nest g)) zero) (zrange 0 (xg_nclasses g)) ;; sfmax r).
    set (g2 := fun x => s <- foldM (fun a row => v <- match row with One t => leaf_of t x | Many _ => Err AttributeError end ;; Ok (add a v)) (xg_estimators g) zero ;;
                        e <- expit s ;; Ok [sub one e; e]).
    destruct (str_eqb (xg_objective g) (lit "multi:softprob")) eqn:E1; [|destruct (str_eqb (xg_objective g) (lit "binary:logistic")) eqn:E2].
    - exists (Z.to_nat (xg_nclasses g)), g1. split.
      + intros x r _ E. unfold g1 in E. nb E s F. apply sfmax_len in E. apply mapM_length in F. rewrite zrange_length, Z.sub_0_r in F. congruence.
      + intros M [N HM]. unfold xgb_predict_proba. rewrite check_wide by auto. cbn [bind]. rewrite E1.
        eapply oke_trans; [|unfold g1; apply oke_rows].
        eapply oke_trans; [apply oke_bind_l with (r' := mapM (fun cls => mapM (fun x => foldM (fun a e => v <- (t <- tr cls e ;; leaf_of t x) ;; Ok (add a v)) (zrange 0 (xg_nest g)) zero) M) (zrange 0 (xg_nclasses g)))|].
        * unfold xgb_scores. apply oke_mapM. intros cls _. unfold len. cbn [items ll bind]. rewrite map_length.
          eapply oke_trans; [|apply oke_fold_rep].
          apply oke_foldM with (P := fun _ => True); [exact I| |auto]. intros acc e _ _.
          unfold tr at 1. eapply oke_trans with (r' := t <- tr cls e ;; p <- reg_predict t (ll M) ;; Ok (zip_with add acc p)).
          { apply oke_eq. unfold tr. rewrite bind_assoc. reflexivity. }
          eapply oke_trans; [|apply oke_bind_l; apply oke_hoist; auto]. rewrite bind_assoc. apply oke_bind_r. intros t _.
          apply oke_bind_l. apply reg_rows; auto.
        * apply oke_bind_r. intros P EP. unfold len. cbn [items ll bind]. rewrite map_length.
          apply oke_eq. apply mapM_ext. intros i _. f_equal. apply zrange_lget.
          apply mapM_length in EP. rewrite zrange_length, Z.sub_0_r in EP. auto.
    - exists 2, g2. split.
      + intros x r _ E. unfold g2 in E. nb E s F. nb E e F'. injection E as <-. auto.
      + intros M [N HM]. unfold xgb_predict_proba. rewrite check_wide by auto. cbn [bind]. rewrite E1, E2.
        unfold xgb_binary_scores, len. cbn [items ll bind]. rewrite map_length. fold (ll M).
        set (s := fun x => foldM (fun a row => v <- match row with One t => leaf_of t x | Many _ => Err AttributeError end ;; Ok (add a v)) (xg_estimators g) zero).
        eapply oke_trans; [|unfold g2; apply (oke_comp s (fun s => e <- expit s ;; Ok [sub one e; e]))].
        apply oke_bind.
        * eapply oke_trans; [|apply oke_fold_rep]. apply oke_foldM with (P := fun _ => True); [exact I| |auto].
          intros acc row _ _. destruct row as [t|ts].
          -- apply oke_bind_l. apply reg_rows; auto.
          -- cbn [bind]. destruct M; [congruence|]. apply oke_err.
        * intros p _. rewrite <- oke_comp_map. apply oke_refl.
    - exists 0, (fun _ => Err ValueError). split; [discriminate|]. intros M [N HM]. unfold xgb_predict_proba.
      rewrite check_wide by auto. cbn [bind]. rewrite E1, E2. apply oke_fails. auto.
  Qed.
  Lemma xgb_pred : forall g : xgb A L, num_pred (xgb_predict g).
  Proof. intro g. apply (num_pred_then (xgb_predict_proba g) (fun a => i <- argmax a ;; lnth (xg_classes g) i)). apply xgb_proba. Qed.
End Models.
