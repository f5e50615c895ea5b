(** Text vectorizers and the tf-idf transformer, row by row. *)
From Coq Require Import String Lia.
From Verif Require Import Model.Py Model.Arith Model.Utils Model.Base Model.Hash Model.DictVec Model.Text Model.Pipeline
  Model.Preprocessing Model.Est.
From Verif Require Import Spec.Batch Proofs.Lib Proofs.Rows Proofs.Batch Proofs.BatchModels Proofs.BatchTransforms.
Local Open Scope nat_scope.

Section Text.
  Context {A : arith} {L V : Type} (U : textlib).
  Local Notation data := (data A V).

  Lemma row_never : forall k (f : data -> tres A V), (forall l o, batch k l -> t_out (f (build k l)) <> Ok o) -> row_new k f.
  Proof.
    intros k f H. exists k, (fun _ => Err ValueError). split; [split; [auto|discriminate]|]. intros l Hl t. split.
    - intro E. unfold outcome in E. nb E o F. destruct (H _ _ Hl F).
    - destruct Hl as [N _]. destruct l; [congruence|discriminate].
  Qed.
  Lemma fams_then : forall {S} (P : S -> Prop) (f : list S -> res (arr A)) (h : arr A -> res (arr A)),
    (forall sz dt, exists sz' dt' (g : dict Z A -> res (dict Z A)), forall R, R <> [] -> oke (h (Sp R sz dt)) (R' <- mapM g R ;; Ok (Sp R' sz' dt'))) ->
    fams P f -> fams P (fun l => X <- f l ;; h X).
  Proof.
    intros S P f h H (sz & dt & g & G). destruct (H sz dt) as (sz' & dt' & g' & G'). exists sz', dt', (fun x => y <- g x ;; g' y).
    intros l N HP. eapply oke_trans; [apply oke_bind_l; apply G; auto|]. rewrite bind_assoc. cbn [bind].
    eapply oke_trans; [apply oke_bind_r; intros R ER; apply G'; eapply mapM_ne; eauto|]. rewrite <- bind_assoc. apply oke_bind_l. apply oke_comp.
  Qed.
  Lemma fams_ext : forall {S} (P : S -> Prop) (f f' : list S -> res (arr A)), (forall l, l <> [] -> Forall P l -> oke (f l) (f' l)) -> fams P f' -> fams P f.
  Proof. intros S P f f' E (sz & dt & g & G). exists sz, dt, g. intros l N H. eapply oke_trans; [apply E; auto|auto]. Qed.
  Lemma fams_hoist : forall {S T} (P : S -> Prop) (m : res T) (f : T -> list S -> res (arr A)), (forall t, m = Ok t -> fams P (f t)) -> fams P (fun l => t <- m ;; f t l).
  Proof.
    intros S T P m f H. destruct m as [t|e]; cbn [bind]; [apply H; auto|]. exists None, DFloat, (fun _ => Err e). intros l N _.
    destruct l; [congruence|]. cbn. apply oke_refl.
  Qed.

  (** TfidfTransformer. *)
  Definition idf1 (idf : list A) (d : dict Z A) : res (dict Z A) := fst (idf_row idf [] d).
  Lemma idf_pair : forall idf todo done d', fst (idf_row (A:=A) idf done todo) = Ok d' -> idf_row idf done todo = (Ok d', d').
  Proof.
    intros idf todo; induction todo as [|[k v] t IH]; intros done d' E; cbn [idf_row] in *.
    - injection E as <-. auto.
    - destruct (lget idf k); [auto|discriminate].
  Qed.
  Lemma idf_rows_ok : forall idf (R : list (dict Z A)),
    match mapM (idf1 idf) R with
    | Ok R' => idf_rows idf (map Di R) = (Ok tt, map Di R')
    | Err _ => exists e l, idf_rows idf (map Di R) = (Err e, l)
    end.
  Proof.
    intros idf R; induction R as [|d R IH]; [reflexivity|]. cbn [map mapM idf_rows]. unfold idf1 at 1.
    destruct (idf_row idf [] d) as [[d'|e] d2] eqn:E; cbn [fst bind].
    - destruct (mapM (idf1 idf) R) as [R'|e']; cbn [bind].
      + rewrite IH. reflexivity.
      + destruct IH as (e & l & ->). eauto.
    - eauto.
  Qed.
  Lemma tfidf_sparse : forall (t : tfidf A) sz dt, exists h : dict Z A -> res (dict Z A), forall R, R <> [] ->
    match mapM h R with
    | Ok R' => tfidf_transform t (Sp R sz dt) = (match tf_norm t with Some nm => normalize_pure (Sp R' sz dt) nm 1 | None => Ok (Sp R' sz dt) end, Sp R' sz dt)
    | Err _ => exists e X, tfidf_transform t (Sp R sz dt) = (Err e, X)
    end.
  Proof.
    intros t sz dt.
    exists (fun d => if tf_sublinear t then Err NameError else if tf_use_idf t then
                       if match sz with Some m => (m =? tf_expected t)%Z | None => false end then idf1 (tf_idf t) d else Err NameError
                     else Ok d).
    intros R N. unfold tfidf_transform.
    assert (ES : shape (Sp R sz dt) = Ok (S2 (Z.of_nat (length R)) sz)).
    { destruct R as [|r R]; [congruence|]. unfold shape. cbn [items map bind length]. rewrite map_length. auto. }
    cbn [check_array bind]. rewrite ES. cbn [bind].
    destruct (tf_sublinear t); [destruct R; [congruence|]; cbn; eauto|].
    destruct (tf_use_idf t).
    - destruct (match sz with Some m => (m =? tf_expected t)%Z | None => false end); [|destruct R; [congruence|]; cbn; eauto].
      cbn [items]. assert (H := idf_rows_ok (tf_idf t) R). change (mapM (fun d => idf1 (tf_idf t) d) R) with (mapM (idf1 (tf_idf t)) R).
      destruct (mapM (idf1 (tf_idf t)) R) as [R'|e].
      + rewrite H. cbn [with_items]. rewrite map_map, map_id. reflexivity.
      + destruct H as (e' & l & ->). eauto.
    - rewrite (mapM_Ok (fun x => x)), map_id. reflexivity.
  Qed.
  Lemma tfidf_dense : forall (t : tfidf A) c M, wide c M ->
    if tf_sublinear t || tf_use_idf t then exists e X, tfidf_transform t (ll M) = (Err e, X)
    else tfidf_transform t (ll M) = (match tf_norm t with Some nm => normalize_pure (ll M) nm 1 | None => Ok (ll M) end, ll M).
  Proof.
    intros t c M HM. unfold tfidf_transform. rewrite check_wide by apply HM. cbn [bind]. rewrite (shape_wide _ _ HM). cbn [bind].
    destruct (tf_sublinear t); cbn [orb]; [eauto|]. destruct (tf_use_idf t); [|reflexivity].
    destruct (Z.of_nat c =? tf_expected t)%Z; [|eauto]. cbn [items ll]. destruct M as [|r M]; [destruct HM; congruence|]. cbn [map idf_rows]. eauto.
  Qed.
  Lemma split_rows : forall (h g : dict Z A -> res (dict Z A)) sz dt R,
    oke (ps <- mapM (fun d => d' <- h d ;; y <- g d' ;; Ok (y, d')) R ;; Ok (Some (DNum (V:=V) (Sp (map fst ps) sz dt)), DNum (V:=V) (Sp (map snd ps) sz dt)))
        (R' <- mapM h R ;; Y <- mapM g R' ;; Ok (Some (DNum (V:=V) (Sp Y sz dt)), DNum (V:=V) (Sp R' sz dt))).
  Proof.
    intros h g sz dt R z. rewrite !bind_ok. split.
    - intros (ps & E1 & E2). exists (map snd ps).
      assert (K : mapM h R = Ok (map snd ps) /\ mapM g (map snd ps) = Ok (map fst ps)).
      { clear E2. revert ps E1. induction R as [|d R IH]; intros ps E1; [injection E1 as <-; auto|]. cbn [mapM] in E1. nb E1 p F. nb E1 ps' F'. injection E1 as <-.
        nb F d' F1. nb F y F2. injection F as <-. destruct (IH _ F') as [I1 I2]. cbn [mapM map fst snd]. rewrite F1, I1, F2, I2. auto. }
      destruct K as [K1 K2]. split; [auto|]. rewrite K2. auto.
    - intros (R' & E1 & E2). nb E2 Y E3. exists (combine Y R'). injection E2 as <-.
      assert (K : mapM (fun d => d' <- h d ;; y <- g d' ;; Ok (y, d')) R = Ok (combine Y R') /\ map fst (combine Y R') = Y /\ map snd (combine Y R') = R').
      { revert R' E1 Y E3. induction R as [|d R IH]; intros R' E1 Y E3; [injection E1 as <-; injection E3 as <-; auto|]. cbn [mapM] in E1. nb E1 d' F. nb E1 R2 F'. injection E1 as <-.
        cbn [mapM] in E3. nb E3 y F2. nb E3 Y2 F3. injection E3 as <-. destruct (IH _ F' _ F3) as (I1 & I2 & I3). cbn [mapM combine map fst snd]. rewrite F. cbn [bind]. rewrite F2. cbn [bind].
        rewrite I1. cbn [bind]. rewrite I2, I3. auto. }
      destruct K as (K1 & K2 & K3). split; [exact K1|]. rewrite K2, K3. auto.
  Qed.
  Lemma tfidf_rows : forall t : tfidf A, row_transform (call_transform (transformer (L:=L) (Some (tfidf_method (V:=V) t)))).
  Proof.
    intros t k. unfold call_transform. cbn [transformer o_transform]. destruct k as [c|sz dt| | |c|]; try (left; apply row_never; discriminate).
    - destruct (tf_sublinear t || tf_use_idf t) eqn:EB; [|destruct (tf_norm t) as [nm|] eqn:EN].
      + left. apply row_never. intros M o Hl. assert (H := tfidf_dense t c M Hl). rewrite EB in H. destruct H as (e & X & H).
        cbn [build tfidf_method]. rewrite H. discriminate.
      + left. destruct (norm_dense (A:=A) nm c) as (g & W & G). eapply row_new_ext with (f' := fun X => {| t_out := Y <- normalize_pure (as_num X) nm 1 ;; Ok (Some (DNum Y)); t_after := X |}).
        * intros M Hl. assert (H := tfidf_dense t c M Hl). rewrite EB, EN in H. cbn [build tfidf_method as_num]. rewrite H, EN. reflexivity.
        * apply famt_fresh with (f := fun X => normalize_pure (as_num X) nm 1). left. exists c, g. split; [intros x r Hx E; rewrite (W _ _ E); exact Hx|].
          intros M N H. apply G. split; auto.
      + right. apply same_row. intros M Hl. assert (H := tfidf_dense t c M Hl). rewrite EB, EN in H. cbn [build tfidf_method]. rewrite H, EN. reflexivity.
    - destruct (tfidf_sparse t sz dt) as (h & H). destruct (tf_norm t) as [nm|] eqn:EN.
      + left. destruct (norm_sparse (A:=A) nm sz dt) as (g & G). exists (KSparse sz dt), (fun d => d' <- h d ;; y <- g d' ;; Ok (y, d')). split; [split; [discriminate|]; intros; split; exact I|].
        intros R [N _]. specialize (H R N). cbn [build tfidf_method].
        rewrite EN. change (oke (outcome (let (r, X') := tfidf_transform t (Sp R sz dt) in {| t_out := Y <- r ;; Ok (Some (DNum Y)) ; t_after := DNum X' |}))
                  (ps <- mapM (fun d => d' <- h d ;; y <- g d' ;; Ok (y, d')) R ;; Ok (Some (DNum (V:=V) (Sp (map fst ps) sz dt)), DNum (V:=V) (Sp (map snd ps) sz dt)))).
        eapply oke_trans; [|apply oke_sym; apply split_rows]. change (row (A:=A) (V:=V) (KSparse sz dt)) with (dict Z A) in *. destruct (mapM h R) as [R'|e] eqn:EH.
        * rewrite H. cbn [bind]. unfold outcome. cbn [t_out t_after]. rewrite bind_assoc. cbn [bind].
          assert (N' : R' <> []) by (eapply mapM_ne; eauto). eapply oke_trans; [apply oke_bind_l; apply G; exact N'|]. rewrite bind_assoc. apply oke_refl.
        * destruct H as (e' & X & ->). apply oke_err.
      + right. exists h. split; [intros; exact I|]. intros R [N _]. specialize (H R N). cbn [build tfidf_method]. change (row (A:=A) (V:=V) (KSparse sz dt)) with (dict Z A).
        destruct (mapM h R) as [R'|e] eqn:EH.
        * rewrite H. unfold outcome. cbn [t_out t_after bind]. rewrite EN. apply oke_refl.
        * destruct H as (e' & X & ->). apply oke_err.
  Qed.

  (** Vectorizers. *)
  Definition anydoc : doc -> Prop := fun _ => True.
  Lemma spl : forall {S} (P : S -> Prop) (g : S -> res (dict Z A)) sz dt, fams P (fun l => R <- mapM g l ;; sparse_list R sz dt).
  Proof. intros. apply spl_rows. Qed.
  Lemma an_other : forall c an, build_analyzer U c = Ok an -> an DocOther = Err TypeError.
  Proof.
    intros c an E. unfold build_analyzer in E. nb E ac F. destruct (str_eqb _ _) in E; [injection E as <-; reflexivity|].
    destruct (str_eqb _ _) in E; [injection E as <-; reflexivity|]. destruct (str_eqb _ _) in E; [|discriminate].
    nb E st F'. injection E as <-. reflexivity.
  Qed.
  Lemma doc_trans : forall f : rawdocs -> res (arr A), (forall t, f (RawDocs [DocOther]) <> Ok t) -> famt anydoc (fun D => f (RawDocs D)) ->
    row_transform (call_transform (transformer (L:=L) (fresh (V:=V) (fun X => f (as_docs X))))).
  Proof.
    intros f H1 H2 k. left. apply famt_fresh. destruct k as [c|sz dt| | |c|]; try (apply famt_never; intros; apply H1).
    exact H2.
  Qed.
  Lemma count_fams : forall c, cv_binary c = false -> fams anydoc (fun D => count_transform (A:=A) U c (RawDocs D)).
  Proof.
    intros c HB. unfold count_transform. rewrite HB.
    assert (K : fams anydoc (fun D => count_vocab (A:=A) U c D)).
    { unfold count_vocab. apply fams_hoist. intros an _. apply (spl anydoc (fun d => fs <- an d ;; Ok (count_features (cv_vocab c) fs))). }
    destruct K as (sz & dt & g & G). exists sz, dt, g. intros D N H. rewrite bind_ret. auto.
  Qed.
  Lemma count_other : forall c t, count_transform (A:=A) U c (RawDocs [DocOther]) <> Ok t.
  Proof.
    intros c t E. unfold count_transform, count_vocab in E. nb E X F. nb F an F1. cbn [mapM] in F. rewrite (an_other _ _ F1) in F. discriminate.
  Qed.
  Lemma count_rows : forall c, cv_binary c = false -> row_transform (call_transform (transformer (A:=A) (L:=L) (fresh (V:=V) (fun X => count_transform U c (as_docs X))))).
  Proof. intros c HB. apply (doc_trans (count_transform U c)); [apply count_other|right; apply count_fams; auto]. Qed.
  Lemma tfidf_then : forall (t : tfidf A) sz dt, exists sz' dt' (g : dict Z A -> res (dict Z A)), forall R, R <> [] ->
    oke (fst (tfidf_transform t (Sp R sz dt))) (R' <- mapM g R ;; Ok (Sp R' sz' dt')).
  Proof.
    intros t sz dt. destruct (tfidf_sparse t sz dt) as (h & H). destruct (tf_norm t) as [nm|] eqn:EN.
    - destruct (norm_sparse (A:=A) nm sz dt) as (g & G). exists sz, dt, (fun d => d' <- h d ;; g d'). intros R N. specialize (H R N).
      eapply oke_trans; [|apply oke_bind_l; apply oke_comp]. rewrite bind_assoc. destruct (mapM h R) as [R'|e] eqn:EH.
      + rewrite H. cbn [bind fst]. apply G. eapply mapM_ne; eauto.
      + destruct H as (e' & X & ->). apply oke_err.
    - exists sz, dt, h. intros R N. specialize (H R N). destruct (mapM h R) as [R'|e] eqn:EH.
      + rewrite H. apply oke_refl.
      + destruct H as (e' & X & ->). apply oke_err.
  Qed.
  Lemma tfidf_vec_rows : forall c (t : tfidf A), cv_binary c = false -> row_transform (call_transform (transformer (L:=L) (fresh (V:=V) (fun X => tfidf_vec_transform U c t (as_docs X))))).
  Proof.
    intros c t HB. apply (doc_trans (tfidf_vec_transform U c t)).
    - intros r E. unfold tfidf_vec_transform in E. nb E X F. eapply count_other; eauto.
    - right. unfold tfidf_vec_transform. apply (fams_then anydoc (fun D => count_transform U c (RawDocs D)) (fun X => fst (tfidf_transform t X))); [apply tfidf_then|apply count_fams; auto].
  Qed.
  Lemma hashvec_rows : forall h, hv_binary h = false -> row_transform (call_transform (transformer (A:=A) (L:=L) (fresh (V:=V) (fun X => hashvec_transform U h (as_docs X))))).
  Proof.
    intros h HB. apply (doc_trans (hashvec_transform U h)).
    - intros r E. unfold hashvec_transform in E. nb E an F. nb E X F1. unfold hasher_transform_string in F1. nb F1 u F2. unfold hashing_transform in F1. nb F1 u' F3.
      cbn [map mapM] in F1. rewrite (an_other _ _ F) in F1. discriminate.
    - right. unfold hashvec_transform. rewrite HB. apply fams_hoist. intros an _.
      apply (fams_then anydoc (fun D => hasher_transform_string (hv_nfeat h) (hv_dtype h) (hv_alt h) (map an D)) (fun X => X' <- Ok X ;; match hv_norm h with Some nm => normalize_pure X' nm 1 | None => Ok X' end)).
      + intros sz dt. cbn [bind]. destruct (hv_norm h) as [nm|].
        * destruct (norm_sparse (A:=A) nm sz dt) as (g & G). exists sz, dt, g. exact G.
        * exists sz, dt, Ok. intros R N. rewrite (mapM_Ok (fun x => x)), map_id. apply oke_refl.
      + unfold hasher_transform_string. apply fams_hoist. intros [] _. unfold hashing_transform. apply fams_hoist. intros [] _.
        eapply (fams_ext anydoc); [|apply (spl anydoc (fun d => x <- (x <- an d ;; Ok (map (fun f => (f, FNum one)) x)) ;; hash_row (hv_nfeat h) (hv_alt h) 0 x) (Some (hv_nfeat h)) (hv_dtype h))].
        intros l _ _. rewrite !mapM_map. apply oke_refl.
  Qed.
  Lemma dictvec_rows : forall d, row_transform (call_transform (transformer (L:=L) (fresh (V:=V) (fun X => match X with DMaps m => dv_transform (A:=A) d m | _ => Err TypeError end)))).
  Proof.
    intros d k. left. apply famt_fresh. destruct k as [c|sz dt| | |c|]; cbn [build]; try (apply famt_never; discriminate).
    unfold dv_transform. destruct (dv_sparse d) eqn:ES.
    - right. destruct (spl (fits (A:=A) (V:=V) KMaps) (dv_row d) (Some (Z.of_nat (length (dv_vocab d)))) (dv_dtype d)) as (sz & dt & g & G). exists sz, dt, g.
      intros l N H. eapply oke_trans; [|apply G; auto]. apply oke_bind_r. intros R _. rewrite bind_ret. apply oke_refl.
    - left. exists (length (dv_vocab d)), (fun x => row <- dv_row d x ;; Ok (map (fun i => dget_default Z.eqb row i (dzero (dv_dtype d))) (zrange 0 (Z.of_nat (length (dv_vocab d)))))).
      split.
      + intros x r _ E. nb E rw F. injection E as <-. rewrite map_length, zrange_length. lia.
      + intros l N H. eapply oke_trans; [|apply oke_bind_l; apply oke_comp]. rewrite bind_assoc. apply oke_bind_r. intros R ER.
        assert (N' : R <> []) by (eapply mapM_ne; eauto). destruct R as [|r R]; [congruence|]. apply oke_refl.
  Qed.
End Text.
