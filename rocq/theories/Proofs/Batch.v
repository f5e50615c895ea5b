(** Row-wise estimators: definitions and composition. *)
From Coq Require Import String Lia.
From Verif Require Import Model.Py Model.Arith Model.Utils Model.Base Model.Hash Model.DictVec
  Model.Text Model.Pipeline.
From Verif Require Import Spec.Batch Proofs.Lib Proofs.Rows.

Section Batch.
  Context {A : arith} {L V : Type}.

  (** The kinds of batches: the second numbers are widths and sizes; [KBad] is
      an object that is not a list. *)
  Inductive kind := KLists (c : nat) | KSparse (sz : option Z) (dt : dtype) | KDocs | KMaps | KCats (c : nat) | KBad.
  Definition row (k : kind) : Type :=
    match k with
    | KLists _ => list A | KSparse _ _ => dict Z A | KDocs => doc
    | KMaps => dict pystr (fval A) | KCats _ => list V | KBad => unit
    end.
  Definition fits (k : kind) : row k -> Prop :=
    match k with
    | KLists c => fun r => length r = c
    | KCats c => fun r => length r = c
    | _ => fun _ => True
    end.
  Definition build (k : kind) : list (row k) -> data A V :=
    match k with
    | KLists _ => fun l => DNum (ll l)
    | KSparse sz dt => fun l => DNum (Sp l sz dt)
    | KDocs => fun l => DDocs (RawDocs l)
    | KMaps => fun l => DMaps (Maps l)
    | KCats _ => fun l => DCats (ll l)
    | KBad => fun _ => DNum NotList
    end.
  Definition batch k (l : list (row k)) : Prop := l <> [] /\ Forall (fits k) l.

  Lemma batch_mapM : forall k k' (g : row k -> res (row k')) l l',
    (forall x y, fits k x -> g x = Ok y -> fits k' y) -> batch k l -> mapM g l = Ok l' -> batch k' l'.
  Proof. intros k k' g l l' H [N F] E. split; [eapply mapM_ne; eauto|eapply mapM_Forall; eauto]. Qed.

  (** Predictions: one value per row, of a type fixed by the kind. *)
  Inductive pkind := PKLab | PKIdx | PKNum.
  Definition pval (p : pkind) : Type := match p with PKLab => L | PKIdx => nat | PKNum => A end.
  Definition mk_preds (p : pkind) : list (pval p) -> preds A L :=
    match p with PKLab => PLab | PKIdx => PIdx | PKNum => PNum end.

  Definition row_predict (f : data A V -> res (preds A L)) : Prop := forall k,
    exists p (g : row k -> res (pval p)), forall l, batch k l ->
      oke (f (build k l)) (r <- mapM g l ;; Ok (mk_preds p r)).
  (** Probabilities: one list per row, of a width fixed by the kind. *)
  Definition row_proba (f : data A V -> res (list (list A))) : Prop := forall k,
    exists w (g : row k -> res (list A)), (forall x r, fits k x -> g x = Ok r -> length r = w) /\
      forall l, batch k l -> oke (f (build k l)) (mapM g l).

  (** Transformers: the result (None = the argument itself) and the argument
      afterwards. *)
  Definition outcome (r : tres A V) : res (option (data A V) * data A V) :=
    o <- t_out r ;; Ok (o, t_after r).
  Definition row_new (k : kind) (f : data A V -> tres A V) : Prop :=
    exists k' (g : row k -> res (row k' * row k)),
      ((k' = KBad -> k = KBad) /\ forall x y z, fits k x -> g x = Ok (y, z) -> fits k' y /\ fits k z) /\
      forall l, batch k l ->
        oke (outcome (f (build k l))) (ps <- mapM g l ;; Ok (Some (build k' (map fst ps)), build k (map snd ps))).
  Definition row_same (k : kind) (f : data A V -> tres A V) : Prop :=
    exists g : row k -> res (row k),
      (forall x y, fits k x -> g x = Ok y -> fits k y) /\
      forall l, batch k l -> oke (outcome (f (build k l))) (ps <- mapM g l ;; Ok (None, build k ps)).
  Definition row_transform (f : data A V -> tres A V) : Prop := forall k, row_new k f \/ row_same k f.

  Definition rowwise (o : obj A L V) : Prop :=
    row_transform (call_transform o) /\
    (forall f, o_predict o = Some f -> row_predict (fun X => fst (f X))) /\
    (forall f, o_proba o = Some f -> row_proba (fun X => fst (f X))) /\
    (forall f, o_log_proba o = Some f -> row_proba (fun X => fst (f X))).

  Lemma batch_map_fst : forall k k' (g : row k -> res (row k' * row k)) l ps,
    (forall x y z, fits k x -> g x = Ok (y, z) -> fits k' y /\ fits k z) -> batch k l -> mapM g l = Ok ps ->
    batch k' (map fst ps) /\ batch k (map snd ps).
  Proof.
    intros k k' g l ps H [N F] E. assert (N' := mapM_ne _ _ _ N E).
    assert (G : Forall (fun p => fits k' (fst p) /\ fits k (snd p)) ps).
    { eapply mapM_Forall; [|exact F|exact E]. intros x [y z] Hx Ex. cbn. eapply H; eauto. }
    split; (split; [destruct ps; [congruence|discriminate]|rewrite Forall_map; eapply Forall_impl; [|exact G]; cbn; tauto]).
  Qed.

  (** the value of a transformation *)
  Lemma row_value : forall f, row_transform f -> forall k, exists k' (g : row k -> res (row k')),
    ((k' = KBad -> k = KBad) /\ forall x y, fits k x -> g x = Ok y -> fits k' y) /\
    forall l, batch k l -> oke (t_value (f (build k l))) (ps <- mapM g l ;; Ok (build k' ps)).
  Proof.
    intros f H k. destruct (H k) as [(k' & g & [KB G1] & G2)|(g & G1 & G2)].
    - exists k', (fun x => yz <- g x ;; Ok (fst yz)). split.
      + split; [exact KB|]. intros x y Hx E. nb E yz F. injection E as <-. destruct yz. eapply G1; eauto.
      + intros l Hl. specialize (G2 l Hl). rewrite <- oke_comp_map, bind_assoc. cbn [bind].
        intro t. unfold t_value. rewrite !bind_ok. split.
        * intros (o & E1 & E2). specialize (G2 (o, t_after (f (build k l)))). unfold outcome in G2. rewrite E1 in G2.
          destruct G2 as [G2 _]. specialize (G2 eq_refl). nb G2 ps F. exists ps. split; auto.
          injection G2 as <- _. auto.
        * intros (ps & E1 & E2). specialize (G2 (Some (build k' (map fst ps)), build k (map snd ps))). rewrite E1 in G2.
          destruct G2 as [_ G2]. specialize (G2 eq_refl). unfold outcome in G2. nb G2 o F. injection G2 as -> _. eauto.
    - exists k, g. split; [split; [auto|exact G1]|]. intros l Hl. specialize (G2 l Hl). intro t. unfold t_value. rewrite !bind_ok. split.
      + intros (o & E1 & E2). specialize (G2 (o, t_after (f (build k l)))). unfold outcome in G2. rewrite E1 in G2.
        destruct G2 as [G2 _]. specialize (G2 eq_refl). nb G2 ps F. exists ps. split; auto. injection G2 as <- ->. auto.
      + intros (ps & E1 & E2). specialize (G2 (None, build k ps)). rewrite E1 in G2. destruct G2 as [_ G2]. specialize (G2 eq_refl).
        unfold outcome in G2. nb G2 o F. injection G2 as -> E3. exists None. split; auto. congruence.
  Qed.

  (** Pipelines. *)
  Lemma run_some : forall steps, Forall (fun o : obj A L V => row_transform (call_transform o)) steps -> forall k,
    exists k' (g : row k -> res (row k')), ((k' = KBad -> k = KBad) /\ forall x y, fits k x -> g x = Ok y -> fits k' y) /\
    forall l X, batch k l ->
      oke (outcome (run_steps steps (Some (build k l)) X)) (ps <- mapM g l ;; Ok (Some (build k' ps), X)).
  Proof.
    intros steps H. induction H as [|o steps Ho H IH]; intro k.
    - exists k, Ok. split; [split; [auto|intros x y Hx E; injection E as <-; auto]|]. intros l X Hl. cbn.
      rewrite (mapM_Ok (fun x => x)), map_id. apply oke_refl.
    - destruct (row_value _ Ho k) as (k1 & g1 & [B1 F1] & R1). destruct (IH k1) as (k2 & g2 & [B2 F2] & R2).
      exists k2, (fun x => y <- g1 x ;; g2 y). split; [split; [auto|]; intros x y Hx E; nb E z G; eapply F2; [eapply F1; eauto|exact E]|].
      intros l X Hl. specialize (R1 l Hl). intro t. cbn [run_steps].
      assert (E0 : outcome (match t_out (call_transform o (build k l)) with
                   | Err e => {| t_out := Err e; t_after := X |}
                   | Ok None => run_steps steps (Some (t_after (call_transform o (build k l)))) X
                   | Ok (Some Y) => run_steps steps (Some Y) X end) =
              (Y <- t_value (call_transform o (build k l)) ;; outcome (run_steps steps (Some Y) X))).
      { unfold t_value. destruct (t_out (call_transform o (build k l))) as [[y|]|e]; cbn; auto. }
      cbv zeta. rewrite E0. clear E0. revert t. change (oke (Y <- t_value (call_transform o (build k l)) ;; outcome (run_steps steps (Some Y) X))
        (ps <- mapM (fun x => y <- g1 x ;; g2 y) l ;; Ok (Some (build k2 ps), X))).
      eapply oke_trans; [apply oke_bind_l; exact R1|]. rewrite bind_assoc. cbn [bind].
      eapply oke_trans; [apply oke_bind_r; intros ps Hps; apply R2; apply (batch_mapM _ _ g1 _ _ F1 Hl Hps)|].
      rewrite <- bind_assoc. apply oke_bind_l. apply oke_comp.
  Qed.

  Lemma run_none : forall steps, Forall (fun o : obj A L V => row_transform (call_transform o)) steps ->
    row_transform (run_steps steps None).
  Proof.
    intros steps H. induction H as [|o steps Ho H IH]; intro k.
    - right. exists Ok. split; [intros x y Hx E; injection E as <-; auto|]. intros l Hl. cbn.
      rewrite (mapM_Ok (fun x => x)), map_id. apply oke_refl.
    - assert (EX : forall X, outcome (run_steps (o :: steps) None X) =
        ('(y, X') <- outcome (call_transform o X) ;; outcome (run_steps steps y X'))).
      { intro X. cbn [run_steps]. unfold outcome. destruct (t_out (call_transform o X)); reflexivity. }
      destruct (Ho k) as [(k1 & g1 & [B1 F1] & R1)|(g1 & F1 & R1)].
      + left. destruct (run_some steps H k1) as (k2 & g2 & [B2 F2] & R2).
        exists k2, (fun x => yz <- g1 x ;; w <- g2 (fst yz) ;; Ok (w, snd yz)). split.
        * split; [auto|]. intros x y z Hx E. nb E yz G. nb E w G'. injection E as <- <-. destruct yz as [y z]. destruct (F1 _ _ _ Hx G). split; eauto.
        * intros l Hl. rewrite EX. eapply oke_trans; [apply oke_bind_l; apply R1; auto|]. rewrite bind_assoc. cbn [bind].
          eapply oke_trans; [apply oke_bind_r; intros ps Hps; apply R2; eapply (batch_map_fst k k1); eauto|].
          intro t. rewrite !bind_ok. split.
          -- intros (ps & E1 & E2). nb E2 ws E3. injection E2 as <-. rewrite mapM_map in E3.
             exists (combine ws (map snd ps)).
             assert (LW := mapM_length _ _ _ E3).
             assert (M1 : forall (T S : Type) (a : list T) (b : list S), length a = length b -> map fst (combine a b) = a /\ map snd (combine a b) = b).
             { intros T S a; induction a as [|x a IHa]; intros [|y b] Q; cbn in *; try discriminate; auto.
               destruct (IHa b ltac:(lia)) as [-> ->]; auto. }
             destruct (M1 _ _ ws (map snd ps)) as [-> ->]; [rewrite map_length; auto|]. split; auto.
             clear - E1 E3. apply mapM_Forall2 in E1. revert ws E3. induction E1 as [|x p l ps E E1 IH]; intros ws E3.
             ++ cbn in E3. injection E3 as <-. auto.
             ++ cbn [mapM] in E3. nb E3 w F. nb E3 ws' F'. injection E3 as <-. cbn [mapM map combine]. rewrite E. cbn [bind].
                rewrite F. cbn [bind]. rewrite (IH _ F'). auto.
          -- intros (qs & E1 & E2). injection E2 as <-. revert qs E1. clear - l.
             assert (G : forall qs, mapM (fun x => yz <- g1 x ;; w <- g2 (fst yz) ;; Ok (w, snd yz)) l = Ok qs ->
               exists ps, mapM g1 l = Ok ps /\ mapM g2 (map fst ps) = Ok (map fst qs) /\ map snd ps = map snd qs).
             { induction l as [|x l IH]; intros qs E.
               - injection E as <-. exists []. auto.
               - cbn [mapM] in E. nb E q F. nb E qs' F'. injection E as <-. nb F yz F1. nb F w F2. injection F as <-.
                 destruct (IH _ F') as (ps & P1 & P2 & P3). exists (yz :: ps). cbn [mapM map]. rewrite F1, P1, F2, P2. cbn. rewrite P3. auto. }
             intros qs E. destruct (G _ E) as (ps & P1 & P2 & P3). exists ps. split; auto. rewrite P2. cbn. rewrite P3. auto.
      + destruct (IH k) as [(k2 & g2 & [B2 F2] & R2)|(g2 & F2 & R2)].
        * left. exists k2, (fun x => y <- g1 x ;; g2 y). split; [split; [auto|]; intros x y z Hx E; nb E w G; eapply F2; [eapply F1; eauto|exact E]|].
          intros l Hl. rewrite EX. eapply oke_trans; [apply oke_bind_l; apply R1; auto|]. rewrite bind_assoc. cbn [bind].
          eapply oke_trans; [apply oke_bind_r; intros ps Hps; apply R2; apply (batch_mapM _ _ g1 _ _ F1 Hl Hps)|].
          rewrite <- bind_assoc. apply oke_bind_l. apply oke_comp.
        * right. exists (fun x => y <- g1 x ;; g2 y). split; [intros x y Hx E; nb E w G; eapply F2; [eapply F1; eauto|exact E]|].
          intros l Hl. rewrite EX. eapply oke_trans; [apply oke_bind_l; apply R1; auto|]. rewrite bind_assoc. cbn [bind].
          eapply oke_trans; [apply oke_bind_r; intros ps Hps; apply R2; apply (batch_mapM _ _ g1 _ _ F1 Hl Hps)|].
          rewrite <- bind_assoc. apply oke_bind_l. apply oke_comp.
  Qed.

  Lemma pipe_value : forall {T} (get : obj A L V -> option (data A V -> res T * data A V)) steps F,
    pipe_method get steps = Some F -> exists final f, last_step steps = Some final /\ get final = Some f /\
    forall X, fst (F X) = (Y <- t_value (run_steps (init_steps steps) None X) ;; fst (f Y)).
  Proof.
    intros T get steps F H. unfold pipe_method in H. destruct (last_step steps) as [fin|]; [|discriminate].
    destruct (get fin) as [f|] eqn:G; [|discriminate]. injection H as <-. exists fin, f. repeat split; auto.
    intro X. unfold t_value. destruct (t_out (run_steps (init_steps steps) None X)) as [[y|]|e]; reflexivity.
  Qed.

  Lemma forall_init : forall (P : obj A L V -> Prop) steps, Forall (fun no : pystr * obj A L V => P (snd no)) steps -> Forall P (init_steps steps).
  Proof.
    intros P steps H. unfold init_steps. rewrite Forall_map. revert H. generalize (List.length steps - 1).
    intros n H. revert n. induction H; intros [|n]; cbn; constructor; auto.
  Qed.
  Lemma forall_last : forall (P : obj A L V -> Prop) steps o, Forall (fun no : pystr * obj A L V => P (snd no)) steps -> last_step steps = Some o -> P o.
  Proof.
    intros P steps o H E. unfold last_step in E. destruct (nth_error steps (List.length steps - 1)) as [[nm o']|] eqn:N; [|discriminate].
    injection E as <-. apply nth_error_In in N. rewrite Forall_forall in H. apply (H _ N).
  Qed.

  Lemma pipeline_rowwise : forall steps : list (pystr * obj A L V),
    Forall (fun no => rowwise (snd no)) steps -> rowwise (pipeline steps).
  Proof.
    intros steps H.
    assert (HI : row_transform (run_steps (init_steps steps) None)).
    { apply run_none. apply forall_init. eapply Forall_impl; [|exact H]. intros no K. apply K. }
    assert (HP : forall o, last_step steps = Some o -> rowwise o) by (intros o; apply forall_last; auto).
    split; [|split; [|split]].
    - assert (HA : row_transform (run_steps (map snd steps) None)).
      { apply run_none. rewrite Forall_map. eapply Forall_impl; [|exact H]. intros no K. apply K. }
      assert (HN : row_transform (fun X => {| t_out := Err AttributeError; t_after := X |})).
      { intro k. left. exists k, (fun _ => Err AttributeError). split; [split; [auto|discriminate]|]. intros l [N _]. cbn.
        destruct l; [congruence|]. apply oke_err. }
      unfold call_transform. cbn [pipeline o_transform]. destruct (last_step steps) as [o|]; [|exact HN]. destruct (o_transform o); [exact HA|exact HN].
    - intros F E. cbn [pipeline o_predict] in E. destruct (pipe_value _ _ _ E) as (fin & f & E1 & E2 & E3).
      destruct (HP _ E1) as (_ & K & _ & _). specialize (K _ E2). intro k. destruct (row_value _ HI k) as (k1 & g1 & [_ F1] & R1).
      destruct (K k1) as (p & g2 & R2). exists p, (fun x => y <- g1 x ;; g2 y). intros l Hl. rewrite E3.
      eapply oke_trans; [apply oke_bind_l; apply R1; auto|]. rewrite bind_assoc. cbn [bind].
      eapply oke_trans; [apply oke_bind_r; intros ps Hps; apply R2; apply (batch_mapM _ _ g1 _ _ F1 Hl Hps)|].
      rewrite <- bind_assoc. apply oke_bind_l. apply oke_comp.
    - intros F E. cbn [pipeline o_proba] in E. destruct (pipe_value _ _ _ E) as (fin & f & E1 & E2 & E3).
      destruct (HP _ E1) as (_ & _ & K & _). specialize (K _ E2). intro k. destruct (row_value _ HI k) as (k1 & g1 & [_ F1] & R1).
      destruct (K k1) as (w & g2 & F2 & R2). exists w, (fun x => y <- g1 x ;; g2 y). split; [intros x y Hx G; nb G z G'; eauto|].
      intros l Hl. rewrite E3. eapply oke_trans; [apply oke_bind_l; apply R1; auto|]. rewrite bind_assoc. cbn [bind].
      eapply oke_trans; [apply oke_bind_r; intros ps Hps; apply R2; apply (batch_mapM _ _ g1 _ _ F1 Hl Hps)|]. apply oke_comp.
    - intros F E. cbn [pipeline o_log_proba] in E. destruct (pipe_value _ _ _ E) as (fin & f & E1 & E2 & E3).
      destruct (HP _ E1) as (_ & _ & _ & K). specialize (K _ E2). intro k. destruct (row_value _ HI k) as (k1 & g1 & [_ F1] & R1).
      destruct (K k1) as (w & g2 & F2 & R2). exists w, (fun x => y <- g1 x ;; g2 y). split; [intros x y Hx G; nb G z G'; eauto|].
      intros l Hl. rewrite E3. eapply oke_trans; [apply oke_bind_l; apply R1; auto|]. rewrite bind_assoc. cbn [bind].
      eapply oke_trans; [apply oke_bind_r; intros ps Hps; apply R2; apply (batch_mapM _ _ g1 _ _ F1 Hl Hps)|]. apply oke_comp.
  Qed.
End Batch.
