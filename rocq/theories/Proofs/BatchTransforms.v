(** The numeric transformers, row by row. *)
From Coq Require Import String Lia.
From Verif Require Import Model.Py Model.Arith Model.Utils Model.Base Model.Hash Model.DictVec Model.Text Model.Pipeline
  Model.Preprocessing Model.Impute Model.Est.
From Verif Require Import Spec.Matrix Spec.Batch Proofs.Lib Proofs.Rows Proofs.Batch Proofs.BatchModels Proofs.BatchEnsembles Proofs.Scaling.
Local Open Scope nat_scope.

Section Transforms.
  Context {A : arith} {L V : Type}.
  Local Notation data := (data A V).

  (** [f] treats rows satisfying [P] one by one and returns lists of one width,
      or a sparse matrix of one size. *)
  Definition famd {S} (P : S -> Prop) (f : list S -> res (arr A)) : Prop :=
    exists w (g : S -> res (list A)), (forall x r, P x -> g x = Ok r -> length r = w) /\
      forall l, l <> [] -> Forall P l -> oke (f l) (M <- mapM g l ;; Ok (ll M)).
  Definition fams {S} (P : S -> Prop) (f : list S -> res (arr A)) : Prop :=
    exists sz dt (g : S -> res (dict Z A)), forall l, l <> [] -> Forall P l -> oke (f l) (R <- mapM g l ;; Ok (Sp R sz dt)).
  Definition famt {S} (P : S -> Prop) (f : list S -> res (arr A)) : Prop := famd P f \/ fams P f.

  Lemma famt_ext : forall {S} (P : S -> Prop) f f', (forall l, l <> [] -> Forall P l -> oke (f l) (f' l)) -> famt P f' -> famt P f.
  Proof.
    intros S P f f' E [(w & g & W & G)|(sz & dt & g & G)]; [left; exists w, g; split; [exact W|]|right; exists sz, dt, g];
      intros l N H; (eapply oke_trans; [apply E; auto|auto]).
  Qed.
  Lemma famt_never : forall {S} (P : S -> Prop) f, (forall l t, l <> [] -> Forall P l -> f l <> Ok t) -> famt P f.
  Proof.
    intros S P f H. left. exists 0, (fun _ => Err ValueError). split; [discriminate|]. intros l N HP t. split.
    - intro E. destruct (H _ _ N HP E).
    - destruct l; [congruence|discriminate].
  Qed.
  Lemma famt_fresh : forall k (f : data -> res (arr A)), famt (fits k) (fun l => f (build k l)) ->
    row_new k (fun X => {| t_out := Y <- f X ;; Ok (Some (DNum Y)); t_after := X |}).
  Proof.
    intros k f H.
    assert (SN : forall T (g : row (A:=A) (V:=V) k -> res T) l ps, mapM (fun x => y <- g x ;; Ok (y, x)) l = Ok ps -> mapM g l = Ok (map fst ps) /\ map snd ps = l).
    { intros T g l; induction l as [|x l IH]; intros ps E; [injection E as <-; auto|]. cbn [mapM] in E. nb E q F. nb E qs F'. injection E as <-.
      nb F y F1. injection F as <-. destruct (IH _ F') as [I1 I2]. cbn [mapM map fst snd]. rewrite F1, I1, I2. auto. }
    assert (NS : forall T (g : row (A:=A) (V:=V) k -> res T) l R, mapM g l = Ok R -> mapM (fun x => y <- g x ;; Ok (y, x)) l = Ok (combine R l) /\ map fst (combine R l) = R /\ map snd (combine R l) = l).
    { intros T g l; induction l as [|x l IH]; intros R E; [injection E as <-; auto|]. cbn [mapM] in E. nb E y F. nb E R' F'. injection E as <-.
      destruct (IH _ F') as (I1 & I2 & I3). cbn [mapM combine map fst snd]. rewrite F, I1. cbn [bind]. rewrite I2, I3. auto. }
    destruct H as [(w & g & W & G)|(sz & dt & g & G)].
    - exists (KLists w), (fun x => y <- g x ;; Ok (y, x)). split.
      + split; [discriminate|]. intros x y z Hx E. nb E r F. injection E as <- <-. split; [|auto]. cbn. eauto.
      + intros l [N HF]. specialize (G l N HF). intro t. unfold outcome. cbn [t_out t_after]. rewrite bind_assoc. cbn [bind]. rewrite !bind_ok. split.
        * intros (Y & E1 & E2). apply G in E1. nb E1 M E3. injection E1 as <-. destruct (NS _ _ _ _ E3) as (I1 & I2 & I3).
          exists (combine M l). split; [exact I1|]. change (Ok (Some (DNum (ll (map fst (combine M l)))), build k (map snd (combine M l))) = Ok t). rewrite I2, I3. auto.
        * intros (ps & E1 & E2). destruct (SN (list A) g l ps E1) as [I1 I2]. exists (ll (map fst ps)). split; [apply G; rewrite I1; auto|].
          rewrite <- E2. rewrite <- I2 at 1. reflexivity.
    - exists (KSparse sz dt), (fun x => y <- g x ;; Ok (y, x)). split.
      + split; [discriminate|]. intros x y z Hx E. nb E r F. injection E as <- <-. split; [|auto]. exact I.
      + intros l [N HF]. specialize (G l N HF). intro t. unfold outcome. cbn [t_out t_after]. rewrite bind_assoc. cbn [bind]. rewrite !bind_ok. split.
        * intros (Y & E1 & E2). apply G in E1. nb E1 M E3. injection E1 as <-. destruct (NS _ _ _ _ E3) as (I1 & I2 & I3).
          exists (combine M l). split; [exact I1|]. change (Ok (Some (DNum (Sp (map fst (combine M l)) sz dt)), build k (map snd (combine M l))) = Ok t). rewrite I2, I3. auto.
        * intros (ps & E1 & E2). destruct (SN (dict Z A) g l ps E1) as [I1 I2]. exists (Sp (map fst ps) sz dt). split; [apply G; rewrite I1; auto|].
          rewrite <- E2. rewrite <- I2 at 1. reflexivity.
  Qed.

  Definition lens (c : nat) : list A -> Prop := fun r => length r = c.
  Definition anyd : dict Z A -> Prop := fun _ => True.
  Definition num_trans (f : arr A -> res (arr A)) : Prop :=
    (forall t, f NotList <> Ok t) /\ (forall c, famt (lens c) (fun M => f (ll M))) /\ (forall sz dt, famt anyd (fun R => f (Sp R sz dt))).
  Lemma num_trans_rows : forall f, num_trans f -> forall k, famt (fits k) (fun l => f (as_num (V:=V) (build k l))).
  Proof.
    intros f (H1 & H2 & H3) [c|sz dt| | |c|]; cbn [build as_num]; try (apply famt_never; intros; apply H1).
    - apply H2.
    - apply H3.
  Qed.
  Lemma num_trans_fresh : forall f, num_trans f -> row_transform (call_transform (transformer (L:=L) (fresh (V:=V) (fun X => f (as_num X))))).
  Proof. intros f H k. left. apply famt_fresh. apply num_trans_rows. auto. Qed.

  (** Row statistics computed first, then used row by row. *)
  Lemma stats_rows : forall {S U} (h : S -> res A) (k : S -> A -> res U) (z : A -> A) (l : list S),
    oke (ns <- mapM h l ;; mapM (fun i => x <- lnth l i ;; n <- lnth (map z ns) i ;; k x n) (range (length l)))
        (mapM (fun x => n <- h x ;; k x (z n)) l).
  Proof.
    intros S U h k z l. eapply oke_trans; [|apply (zip_then h (fun x n => k x (z n)))]. apply oke_bind_r. intros ns E. apply mapM_length in E.
    rewrite (mapM_range_nth2 l (map z ns) k) by (rewrite map_length; auto). apply oke_eq. clear E. revert ns.
    induction l as [|x l IH]; intros [|n ns]; [auto|auto|auto|]. cbn [map combine mapM fst snd]. rewrite IH. auto.
  Qed.
  Lemma mapM_lnth_in : forall {S U T} (r : res U) (u : U) (f : S -> U -> res T) l, r = Ok u -> mapM (fun a => n <- r ;; f a n) l = mapM (fun a => f a u) l.
  Proof. intros S U T r u f l ->. reflexivity. Qed.

  Definition norm_ok (nm : pystr) : bool := mem str_eqb nm [lit "l1"; lit "l2"; lit "max"].
  Lemma norm_cases : forall nm, norm_ok nm = true -> nm = lit "l1" \/ nm = lit "l2" \/ nm = lit "max".
  Proof. intros nm H. apply (mem_in str_eqb str_eqb_ok) in H. destruct H as [<-|[<-|[<-|[]]]]; auto. Qed.
  Lemma normalize_bad : forall (X : arr A) nm t, norm_ok nm = false -> normalize_pure X nm 1 <> Ok t.
  Proof.
    intros X nm t H E. unfold normalize_pure, normalize_full in E. fold (norm_ok nm) in E. rewrite H in E.
    cbn [guard Z.eqb Pos.eqb andb negb bind] in E. discriminate.
  Qed.
  Lemma wide_rect : forall {T} c (M : list (list T)), wide c M -> rect M (length M) c /\ 1 <= length M.
  Proof. intros T c M [N H]. split; [split; auto|]. destruct M; [congruence|cbn; lia]. Qed.

  Lemma norm_dense : forall nm c, exists g : list A -> res (list A), (forall x r, g x = Ok r -> length r = length x) /\
    forall M, wide c M -> oke (normalize_pure (ll M) nm 1) (R <- mapM g M ;; Ok (ll R)).
  Proof.
    intros nm c. destruct (norm_ok nm) eqn:EN.
    2: { exists (fun _ => Err ValueError). split; [discriminate|]. intros M [N _] t. split; [intro E; destruct (normalize_bad _ _ _ EN E)|].
         destruct M; [congruence|discriminate]. }
    assert (HN : exists h : list A -> res A, forall M, wide c M -> norms_of (ll M) nm = mapM h M).
    { destruct (norm_cases _ EN) as [->|[->| ->]].
      - exists (fun r => Ok (psum (map absv r))). intros M _. rewrite norms_l1, mapM_Ok. auto.
      - exists (fun r => sqrtv (dotp r r)). intros M H. destruct (wide_rect _ _ H). eapply norms_l2; eauto.
      - exists (pymax gtb). intros M _. apply norms_max. }
    destruct HN as [h HN].
    exists (fun r => n <- h r ;; mapM (fun a => div a (if eqb n zero then one else n)) r). split.
    - intros x r E. nb E n F. eapply mapM_length; eauto.
    - intros M HM. destruct HM as [N HM]. unfold normalize_pure, normalize_full. fold (norm_ok nm). rewrite EN.
      cbn [guard Z.eqb Pos.eqb andb negb orb bind]. rewrite check_wide by auto. cbn [bind issparse ll andb negb guard]. change (Arr (map Ls M)) with (ll M).
      rewrite HN by (split; auto).
      eapply oke_trans; [|apply oke_bind_l; apply (stats_rows h (fun r n => mapM (fun a => div a n) r) (fun s => if eqb s zero then one else s))].
      rewrite !bind_assoc. apply oke_bind_r. intros ns ENs. apply mapM_length in ENs. unfold scale_rows, handle_zeros. cbn [ll items bind]. rewrite map_length.
      rewrite !bind_assoc. cbn [bind fst].
      apply oke_eq. f_equal. apply mapM_ext. intros i Hi. apply in_seq in Hi. destruct (lnth_lt M i ltac:(lia)) as (r & E1 & E2).
      unfold lnth at 1. rewrite nth_error_map', E2. cbn [option_map bind iter_item]. rewrite E1. cbn [bind].
      destruct (lnth_lt (map (fun s => if eqb s zero then one else s) ns) i) as (n & E3 & _); [rewrite map_length; lia|]. rewrite E3. reflexivity.
  Qed.
  Lemma norm_sparse : forall nm sz dt, exists g : dict Z A -> res (dict Z A),
    forall R, R <> [] -> oke (normalize_pure (Sp R sz dt) nm 1) (R' <- mapM g R ;; Ok (Sp R' sz dt)).
  Proof.
    intros nm sz dt. destruct (norm_ok nm) eqn:EN.
    2: { exists (fun _ => Err ValueError). intros R N t. split; [intro E; destruct (normalize_bad _ _ _ EN E)|].
         destruct R; [congruence|discriminate]. }
    assert (SL : forall R : list (dict Z A), R <> [] -> sparse_list R sz dt = Ok (Sp R sz dt)) by (intros [|]; [congruence|reflexivity]).
    assert (HN : exists h : dict Z A -> res A, forall R, R <> [] -> norms_of (Sp R sz dt) nm = mapM h R).
    { destruct (norm_cases _ EN) as [->|[->| ->]].
      - exists (fun r => Ok (psum (map absv (dvalues r)))). intros R _. unfold norms_of. change (str_eqb (lit "l1") (lit "l1")) with true. cbv iota. cbn [issparse items bind].
        rewrite mapM_map. reflexivity.
      - exists (fun r => sqrtv (psum (dvalues (mult_rows r r)))). intros R N. unfold norms_of. change (str_eqb (lit "l2") (lit "l1")) with false. change (str_eqb (lit "l2") (lit "l2")) with true. cbv iota.
        unfold row_norms, matmult_same_dim.
        assert (ES : shape (Sp R sz dt) = Ok (S2 (Z.of_nat (length R)) sz)).
        { destruct R as [|r R]; [congruence|]. unfold shape. cbn [items map bind length]. rewrite map_length. auto. }
        rewrite ES. cbn [bind]. assert (G : shp_eqb (S2 (Z.of_nat (length R)) sz) (S2 (Z.of_nat (length R)) sz) = true).
        { unfold shp_eqb. rewrite Z.eqb_refl. destruct sz; [apply Z.eqb_refl|reflexivity]. }
        rewrite G. cbn [guard bind issparse Bool.eqb]. rewrite SL by (destruct R; [congruence|discriminate]). cbn [bind items].
        rewrite mapM_map. cbn [item_values bind]. rewrite mapM_Ok. cbn [bind]. rewrite mapM_map.
        clear. induction R as [|r R IH]; [reflexivity|]. cbn [zip_with mapM]. rewrite IH. auto.
      - exists (fun r => pymax gtb (dvalues r ++ [zero])). intros R _. unfold norms_of. change (str_eqb (lit "max") (lit "l1")) with false. change (str_eqb (lit "max") (lit "l2")) with false. cbv iota.
        cbn [issparse items bind]. rewrite mapM_map. reflexivity. }
    destruct HN as [h HN].
    exists (fun r => n <- h r ;; dmapM (fun _ v => div v (if eqb n zero then one else n)) r).
    intros R N. unfold normalize_pure, normalize_full. fold (norm_ok nm). rewrite EN.
    cbn [guard Z.eqb Pos.eqb andb negb orb bind]. cbn [check_array bind issparse andb negb guard].
    rewrite HN by auto.
    eapply oke_trans; [|apply oke_bind_l; apply (stats_rows h (fun r n => dmapM (fun _ v => div v n) r) (fun s => if eqb s zero then one else s))].
    rewrite !bind_assoc. apply oke_bind_r. intros ns ENs. apply mapM_length in ENs. unfold scale_rows, handle_zeros.
    rewrite !bind_assoc. cbn [bind fst].
    eapply oke_trans with (r' := R' <- mapM (fun i => x <- lnth R i ;; n <- lnth (map (fun s => if eqb s zero then one else s) ns) i ;; dmapM (fun _ v => div v n) x) (range (length R)) ;; sparse_list R' sz dt).
    - apply oke_bind; [|intros R' _; rewrite bind_ret; apply oke_refl]. apply oke_eq.
      apply mapM_ext. intros i Hi. apply in_seq in Hi. destruct (lnth_lt R i ltac:(lia)) as (r & E1 & E2). rewrite E1. cbn [bind].
      destruct (lnth_lt (map (fun s => if eqb s zero then one else s) ns) i) as (n & E3 & _); [rewrite map_length; lia|]. rewrite E3. reflexivity.
    - apply oke_bind_r. intros R' ER. rewrite SL; [apply oke_refl|]. eapply mapM_ne; [|exact ER]. destruct R; [congruence|discriminate].
  Qed.

  Lemma spl_rows : forall {S} (P : S -> Prop) (g : S -> res (dict Z A)) sz dt, fams P (fun l => R <- mapM g l ;; sparse_list R sz dt).
  Proof.
    intros S P g sz dt. exists sz, dt, g. intros l N _. apply oke_bind_r. intros R E.
    assert (R <> []) by (eapply mapM_ne; eauto). destruct R; [congruence|apply oke_refl].
  Qed.
  Lemma lls_rows : forall {S} (P : S -> Prop) (g : S -> res (list A)) w, (forall x r, P x -> g x = Ok r -> length r = w) -> famd P (fun l => R <- mapM g l ;; Ok (ll R)).
  Proof. intros S P g w H. exists w, g. split; [exact H|]. intros; apply oke_refl. Qed.

  Lemma normalizer_rows : forall nm, num_trans (normalizer_transform nm).
  Proof.
    intro nm. split; [discriminate|]. split.
    - intro c. destruct (norm_dense nm c) as (g & W & G). left. exists c, g. split; [intros x r Hx E; rewrite (W _ _ E); exact Hx|].
      intros M N H. unfold normalizer_transform. rewrite check_wide by auto. cbn [bind]. apply G. split; auto.
    - intros sz dt. destruct (norm_sparse nm sz dt) as (g & G). right. exists sz, dt, g. intros R N _. apply G. auto.
  Qed.
  Lemma range_length : forall n, length (range n) = n. Proof. intro. apply seq_length. Qed.
  Lemma div_row_len : forall sc (x : item A) r, div_row sc x = Ok r -> length r = length sc.
  Proof. intros sc x r E. apply mapM_length in E. rewrite range_length in E. auto. Qed.
  Lemma maxabs_rows : forall sc, num_trans (maxabs_transform sc).
  Proof.
    intro sc. split; [discriminate|]. split.
    - intro c. apply famt_ext with (f' := fun M => R <- mapM (fun x => s <- not_none sc ;; div_row s (Ls x)) M ;; Ok (ll R)).
      + intros M N H. unfold maxabs_transform. rewrite check_wide by auto. cbn [bind ll items]. rewrite mapM_map. apply oke_refl.
      + left. apply lls_rows with (w := match sc with Some s => length s | None => 0 end). intros x r _ E. nb E s F. apply div_row_len in E.
        destruct sc; [injection F as <-; auto|discriminate].
    - intros sz dt. right. apply (spl_rows anyd (dmapM (fun k v => sc <- not_none sc ;; s <- lget sc k ;; div v s)) sz dt).
  Qed.
  Lemma minmax_rows : forall s, num_trans (minmax_transform s).
  Proof.
    intro s. split; [discriminate|]. split.
    - intro c. apply famt_ext with (f' := fun M => R <- mapM (fun x => sc <- not_none (mm_scale s) ;;
           mapM (fun i => v <- item_get (Ls x) (Z.of_nat i) ;; c <- lnth sc i ;; mn <- not_none (mm_min s) ;; m <- lnth mn i ;; Ok (add (mul v c) m)) (range (length sc))) M ;; Ok (ll R)).
      + intros M N H. unfold minmax_transform. cbn [issparse ll]. fold (ll M). rewrite check_wide by auto. cbn [bind ll items]. rewrite mapM_map. apply oke_refl.
      + left. apply lls_rows with (w := match mm_scale s with Some sc => length sc | None => 0 end). intros x r _ E. nb E sc F. apply mapM_length in E. rewrite range_length in E.
        destruct (mm_scale s); [injection F as <-; auto|discriminate].
    - intros sz dt. apply famt_never. discriminate.
  Qed.

  (** StandardScaler; with nothing to do it returns its argument. *)
  Definition std_mean_row (s : std_scaler A) (x : list A) : res (list A) :=
    mean <- not_none (ss_mean s) ;; mapM (fun i => v <- item_get (Ls x) (Z.of_nat i) ;; m <- lnth mean i ;; Ok (sub v m)) (range (length mean)).
  Definition std_scale_row (s : std_scaler A) (x : list A) : res (list A) := sc <- not_none (ss_scale s) ;; div_row sc (Ls x).
  Lemma std_mean_len : forall s x r, std_mean_row s x = Ok r -> length r = match ss_mean s with Some m => length m | None => 0 end.
  Proof. intros s x r E. unfold std_mean_row in E. nb E m F. apply mapM_length in E. rewrite range_length in E. destruct (ss_mean s); [injection F as <-; auto|discriminate]. Qed.
  Lemma std_scale_len : forall s x r, std_scale_row s x = Ok r -> length r = match ss_scale s with Some m => length m | None => 0 end.
  Proof. intros s x r E. unfold std_scale_row in E. nb E m F. apply div_row_len in E. destruct (ss_scale s); [injection F as <-; auto|discriminate]. Qed.
  Lemma same_row : forall k (f : data -> tres A V), (forall l, batch k l -> f (build k l) = {| t_out := Ok None; t_after := build k l |}) -> row_same k f.
  Proof.
    intros k f H. exists Ok. split; [intros x y Hx E; injection E as <-; auto|]. intros l Hl. rewrite H by auto. unfold outcome. cbn [t_out t_after bind].
    rewrite (mapM_Ok (fun x => x)), map_id. apply oke_refl.
  Qed.
  Lemma row_new_ext : forall k (f f' : data -> tres A V), (forall l, batch k l -> f (build k l) = f' (build k l)) -> row_new k f' -> row_new k f.
  Proof. intros k f f' E (k' & g & F & G). exists k', g. split; [exact F|]. intros l Hl. rewrite E by auto. auto. Qed.
  Lemma std_rows : forall s : std_scaler A, row_transform (call_transform (transformer (L:=L) (Some (std_method (V:=V) s)))).
  Proof.
    intros s k. unfold call_transform. cbn [transformer o_transform].
    assert (NL : forall X : data, as_num X = NotList -> std_method s X = {| t_out := Y <- std_transform s (as_num X) ;; Ok (Some (DNum Y)); t_after := X |}).
    { intros X E. unfold std_method. rewrite E. reflexivity. }
    assert (NN : (forall l, as_num (A:=A) (V:=V) (build k l) = NotList) -> row_new (V:=V) k (std_method s)).
    { intro H. eapply row_new_ext with (f' := fun X => {| t_out := Y <- std_transform s (as_num X) ;; Ok (Some (DNum Y)); t_after := X |}); [intros l Hl; apply NL; auto|]. apply famt_fresh with (f := fun X => std_transform s (as_num X)).
      apply famt_never. intros l t _ _. rewrite H. discriminate. }
    destruct k as [c|sz dt| | |c|]; try (left; apply NN; reflexivity).
    - destruct (ss_mean_on s) eqn:E1; destruct (ss_std_on s) eqn:E2.
      4: { right. apply same_row. intros M [N H]. unfold std_method, std_transform. cbn [build as_num]. rewrite check_wide by exact N. cbn [bind ll]. rewrite E1, E2.
           destruct M; [congruence|]. unfold std_same, ll. cbn [map]. rewrite E1, E2. reflexivity. }
      all: left; (eapply row_new_ext with (f' := fun X => {| t_out := Y <- std_transform s (as_num X) ;; Ok (Some (DNum Y)); t_after := X |});
        [intros M [N H]; unfold std_method; cbn [build as_num]; unfold ll; destruct M; [congruence|]; cbn [map std_same]; rewrite E1, E2; reflexivity|]);
        apply famt_fresh with (f := fun X => std_transform s (as_num X)); cbn [build as_num].
      + apply famt_ext with (f' := fun M => R <- mapM (fun x => y <- std_mean_row s x ;; std_scale_row s y) M ;; Ok (ll R)).
        * intros M N H. unfold std_transform. rewrite check_wide by auto. cbn [bind ll items]. rewrite E1, E2, mapM_map.
          change (fun x => mean <- not_none (ss_mean s) ;; mapM (fun i => v <- item_get (Ls x) (Z.of_nat i) ;; m <- lnth mean i ;; Ok (sub v m)) (range (length mean))) with (std_mean_row s).
          rewrite bind_assoc. cbn [bind items]. eapply oke_trans; [|apply oke_bind_l; apply oke_comp]. rewrite bind_assoc. apply oke_bind_r. intros R _.
          cbn [ll items bind]. rewrite mapM_map. apply oke_refl.
        * left. eapply lls_rows. intros x r _ E. nb E y F. eapply std_scale_len; eauto.
      + apply famt_ext with (f' := fun M => R <- mapM (std_mean_row s) M ;; Ok (ll R)).
        * intros M N H. unfold std_transform. rewrite check_wide by auto. cbn [bind ll items]. rewrite E1, E2, mapM_map. rewrite bind_ret. apply oke_refl.
        * left. eapply lls_rows. intros x r _ E. eapply std_mean_len; eauto.
      + apply famt_ext with (f' := fun M => R <- mapM (std_scale_row s) M ;; Ok (ll R)).
        * intros M N H. unfold std_transform. rewrite check_wide by auto. cbn [bind ll items]. rewrite E1, E2. cbn [bind ll items]. rewrite mapM_map. apply oke_refl.
        * left. eapply lls_rows. intros x r _ E. eapply std_scale_len; eauto.
    - destruct (ss_mean_on s) eqn:E1; [|destruct (ss_scale s) as [sc|] eqn:E2].
      + left. eapply row_new_ext with (f' := fun X => {| t_out := Y <- std_transform s (as_num X) ;; Ok (Some (DNum Y)); t_after := X |});
          [intros M [N H]; unfold std_method; cbn [build as_num std_same]; rewrite E1; reflexivity|].
        apply famt_fresh with (f := fun X => std_transform s (as_num X)). apply famt_never. intros l t _ _. unfold std_transform. cbn [build as_num check_array bind]. rewrite E1. discriminate.
      + left. eapply row_new_ext with (f' := fun X => {| t_out := Y <- std_transform s (as_num X) ;; Ok (Some (DNum Y)); t_after := X |});
          [intros M [N H]; unfold std_method; cbn [build as_num std_same]; rewrite E1, E2; reflexivity|].
        apply famt_fresh with (f := fun X => std_transform s (as_num X)).
        apply famt_ext with (f' := fun R => R' <- mapM (div_cells sc) R ;; sparse_list R' sz dt).
        * intros R N _. unfold std_transform. cbn [build as_num check_array bind]. rewrite E1, E2. apply oke_refl.
        * right. apply spl_rows.
      + right. apply same_row. intros R [N H]. unfold std_method, std_transform. cbn [build as_num check_array bind std_same]. rewrite E1, E2. reflexivity.
  Qed.

  (** MissingIndicator. *)
  Definition ind_row (t : indicator A) (x : list A) : list A :=
    let a := map (to_impute (mi_missing t)) x in
    if str_eqb (mi_features t) (lit "missing-only") && (Z.of_nat (length (mi_fitted t)) <? mi_nfeat t)%Z
    then map (fun iv => of_bool (snd iv)) (filter (fun iv => mem Z.eqb (Z.of_nat (fst iv)) (mi_fitted t)) (combine (range (length a)) a))
    else map of_bool a.
  Lemma filter_fst_len : forall {T} (P : nat -> bool) (ks : list nat) (a : list T), length ks = length a ->
    length (filter (fun iv => P (fst iv)) (combine ks a)) = length (filter P ks).
  Proof. intros T P ks; induction ks as [|k ks IH]; intros [|x a] E; cbn in *; try discriminate; auto. destruct (P k); cbn; rewrite IH by lia; auto. Qed.
  Lemma ind_row_len : forall t c, exists w, forall x, length x = c -> length (ind_row t x) = w.
  Proof.
    intros t c. unfold ind_row. destruct (_ && _).
    - exists (length (filter (fun i => mem Z.eqb (Z.of_nat i) (mi_fitted t)) (range c))). intros x Hx. cbv zeta. rewrite map_length.
      rewrite (filter_fst_len (fun i => mem Z.eqb (Z.of_nat i) (mi_fitted t))) by apply range_length. rewrite map_length, Hx. auto.
    - exists c. intros x Hx. rewrite !map_length. auto.
  Qed.
  Definition ind_feats (t : indicator A) : bool := str_eqb (mi_features t) (lit "missing-only") || str_eqb (mi_features t) (lit "all").
  Lemma ind_dense : forall t c M, indicator_rowwise t -> wide c M ->
    oke (indicator_transform t (ll M)) (if (Z.of_nat c =? mi_nfeat t)%Z && ind_feats t then Ok (map (ind_row t) M) else Err ValueError).
  Proof.
    intros t c M HI HM. unfold indicator_transform. rewrite check_wide by apply HM. cbn [bind]. rewrite (shape1_wide _ _ HM). cbn [bind].
    destruct (Z.of_nat c =? mi_nfeat t)%Z; cbn [guard bind andb]; [|apply oke_err].
    unfold missing_info, ind_feats, ind_row. rewrite apply_2d_rows.
    rewrite (mapM_ext _ (fun r => Ok (map (to_impute (mi_missing t)) r))) by (intros; apply mapM_Ok). rewrite mapM_Ok. cbn [bind].
    destruct (str_eqb (mi_features t) (lit "missing-only")) eqn:E1; cbn [orb andb bind].
    - destruct HI as [HI|HI]; [|apply str_eqb_ok in E1; congruence]. rewrite HI. cbn [andb negb guard bind].
      destruct (_ <? _)%Z; cbv zeta; rewrite map_map; apply oke_refl.
    - destruct (str_eqb (mi_features t) (lit "all")); [|apply oke_err]. rewrite (shape1_wide _ _ HM). cbn [bind]. cbv zeta. rewrite map_map. apply oke_refl.
  Qed.
  Lemma indicator_rows : forall t, indicator_rowwise t -> num_trans (fun X => rows_out (indicator_transform t X)).
  Proof.
    intros t HI. split; [discriminate|]. split.
    - intro c. destruct ((Z.of_nat c =? mi_nfeat t)%Z && ind_feats t) eqn:EB.
      + left. destruct (ind_row_len t c) as [w W]. exists w, (fun x => Ok (ind_row t x)). split; [intros x r Hx E; injection E as <-; auto|].
        intros M N H. unfold rows_out. eapply oke_trans; [apply oke_bind_l; apply (ind_dense t c M HI); split; auto|]. rewrite EB, mapM_Ok. apply oke_refl.
      + apply famt_never. intros M r N H E. unfold rows_out in E. nb E R F. apply (ind_dense t c M HI) in F; [|split; auto]. rewrite EB in F. discriminate.
    - intros sz dt. apply famt_never. discriminate.
  Qed.

  (** SimpleImputer. *)
  Definition imp_stats (s : imputer A) : list A :=
    match removed s with
    | [] => si_stats s
    | _ => map snd (filter (fun iv => negb (mem Nat.eqb (fst iv) (removed s))) (combine (range (length (si_stats s))) (si_stats s)))
    end.
  Definition imp_keep (s : imputer A) (x : list A) : res (list A) :=
    match removed s with
    | [] => Ok x
    | _ => mapM (fun i => item_get (Ls x) (Z.of_nat i)) (filter (fun i => negb (mem Nat.eqb i (removed s))) (range (length x)))
    end.
  Definition imp_fill (s : imputer A) (x : list A) : res (list A) :=
    mapM (fun i => v <- item_get (Ls x) (Z.of_nat i) ;; if to_impute (si_missing s) v then lnth (imp_stats s) i else Ok v) (range (length x)).
  Definition imp_guard (s : imputer A) (c : nat) : bool :=
    match si_stats s with [] => false | _ => (Z.of_nat c =? Z.of_nat (length (si_stats s)))%Z end.
  Definition imp_ind (s : imputer A) (c : nat) : option (option (indicator A)) :=
    if si_add s then match si_indicator s with
                     | None => None
                     | Some t => if (Z.of_nat c =? mi_nfeat t)%Z && ind_feats t then Some (Some t) else None
                     end
    else Some None.
  Definition imp_row (s : imputer A) (o : option (indicator A)) (x : list A) : res (list A) :=
    a <- (y <- imp_keep s x ;; imp_fill s y) ;; Ok (a ++ match o with Some t => ind_row t x | None => [] end).
  Lemma imp_len : forall s o c, exists w, forall x r, length x = c -> imp_row s o x = Ok r -> length r = w.
  Proof.
    intros s o c. assert (HI : exists wi, forall x, length x = c -> length (match o with Some t => ind_row t x | None => [] end) = wi).
    { destruct o as [t|]; [apply ind_row_len|exists 0; auto]. }
    destruct HI as [wi HI].
    assert (HK : exists wk, forall x y, length x = c -> imp_keep s x = Ok y -> length y = wk).
    { unfold imp_keep. destruct (removed s) as [|q qs].
      - exists c. intros x y Hx E. injection E as <-. auto.
      - exists (length (filter (fun i => negb (mem Nat.eqb i (q :: qs))) (range c))). intros x y Hx E. apply mapM_length in E. rewrite E, Hx. auto. }
    destruct HK as [wk HK]. exists (wk + wi). intros x r Hx E. unfold imp_row in E. nb E a F. injection E as <-. nb F y F1. rewrite app_length, (HI x Hx). f_equal.
    apply mapM_length in F. rewrite range_length in F. rewrite F. eapply HK; eauto.
  Qed.
  Lemma imputer_dense : forall s c M, match si_indicator s with Some t => indicator_rowwise t | None => True end -> wide c M ->
    oke (imputer_transform s (ll M)) (if imp_guard s c then match imp_ind s c with Some o => mapM (imp_row s o) M | None => Err ValueError end else Err ValueError).
  Proof.
    intros s c M HI HM. unfold imputer_transform. rewrite check_wide by apply HM. cbn [bind].
    assert (E1 : oke (if si_add s then match si_indicator s with None => Err ValueError | Some t => ind <- indicator_transform t (ll M) ;; Ok (Some ind) end else Ok None)
                     (match imp_ind s c with Some (Some t) => Ok (Some (map (ind_row t) M)) | Some None => Ok None | None => Err ValueError end)).
    { unfold imp_ind. destruct (si_add s); [|apply oke_refl]. destruct (si_indicator s) as [t|]; [|apply oke_err].
      eapply oke_trans; [apply oke_bind_l; apply (ind_dense t c M HI HM)|]. destruct (_ && _); [apply oke_refl|apply oke_err]. }
    eapply oke_trans; [apply oke_bind_l; exact E1|]. clear E1.
    assert (E2 : forall {R} (k : res R), oke (w <- shape1 (ll M) ;; (match si_stats s with
       | [] => Err IndexError | _ => guard (match w with Some w => (w =? Z.of_nat (length (si_stats s)))%Z | None => false end) ValueError end) ;; k)
       (if imp_guard s c then k else Err ValueError)).
    { intros R k. rewrite (shape1_wide _ _ HM). cbn [bind]. unfold imp_guard. destruct (si_stats s); [apply oke_err|]. destruct (_ =? _)%Z; cbn; [apply oke_refl|apply oke_err]. }
    destruct (imp_ind s c) as [o|]; [|cbn [bind]; destruct (imp_guard s c); apply oke_err].
    eapply oke_trans with (r' := if imp_guard s c then imp <- mapM (fun x => y <- imp_keep s x ;; imp_fill s y) M ;;
        match o with None => Ok imp | Some t => mapM (fun i => a <- lnth imp i ;; b <- lnth (map (ind_row t) M) i ;; Ok (a ++ b)) (range (length imp)) end else Err ValueError).
    - assert (E3 : forall mk : option (list (list A)), oke (l <- items (ll M) ;;
         rows <- match removed s with [] => Ok l | _ => mapM (fun a => n <- item_len a ;; r <- mapM (fun i => item_get a (Z.of_nat i)) (filter (fun i => negb (mem Nat.eqb i (removed s))) (range n)) ;; Ok (Ls r)) l end ;;
         imp <- mapM (fun a => n <- item_len a ;; mapM (fun i => v <- item_get a (Z.of_nat i) ;; if to_impute (si_missing s) v then lnth (imp_stats s) i else Ok v) (range n)) rows ;;
         match mk with None => Ok imp | Some mk => mapM (fun i => a <- lnth imp i ;; b <- lnth mk i ;; Ok (a ++ b)) (range (length imp)) end)
        (imp <- mapM (fun x => y <- imp_keep s x ;; imp_fill s y) M ;;
         match mk with None => Ok imp | Some mk => mapM (fun i => a <- lnth imp i ;; b <- lnth mk i ;; Ok (a ++ b)) (range (length imp)) end)).
      { intro mk. cbn [ll items bind].
        assert (E4 : oke (match removed s with [] => Ok (map Ls M) | _ => mapM (fun a => n <- item_len a ;; r <- mapM (fun i => item_get a (Z.of_nat i)) (filter (fun i => negb (mem Nat.eqb i (removed s))) (range n)) ;; Ok (Ls r)) (map Ls M) end)
                         (Y <- mapM (imp_keep s) M ;; Ok (map Ls Y))).
        { unfold imp_keep. destruct (removed s) as [|q qs].
          - rewrite (mapM_Ok (fun x => x)), map_id. apply oke_refl.
          - rewrite mapM_map. cbn [item_len bind]. rewrite oke_comp_map. apply oke_refl. }
        eapply oke_trans; [apply oke_bind_l; exact E4|]. rewrite bind_assoc. cbn [bind].
        eapply oke_trans; [|apply oke_bind_l; apply oke_comp]. rewrite bind_assoc. apply oke_bind_r. intros Y _. rewrite mapM_map. apply oke_refl. }
      destruct o as [t|]; cbn [bind]; (eapply oke_trans; [apply E2|]); (destruct (imp_guard s c); [|apply oke_refl]).
      + exact (E3 (Some (map (ind_row t) M))).
      + exact (E3 None).
    - destruct (imp_guard s c); [|apply oke_refl]. unfold imp_row. destruct o as [t|].
      + eapply oke_trans; [|apply (zip_mapM (fun x => y <- imp_keep s x ;; imp_fill s y) (fun x => Ok (ind_row t x)) (fun a b => a ++ b) M)].
        apply oke_bind_r. intros imp E. apply mapM_length in E. rewrite mapM_Ok. cbn [bind].
        rewrite (mapM_range_nth2 imp (map (ind_row t) M) (fun a b => Ok (a ++ b))) by (rewrite map_length; auto).
        rewrite mapM_Ok, zip_with_combine. apply oke_refl.
      + apply oke_eq. rewrite <- oke_comp_map. apply bind_ext. intros imp _. f_equal. symmetry. rewrite <- (map_id imp) at 2. apply map_ext. intro; apply app_nil_r.
  Qed.
  Lemma imputer_rows : forall s, match si_indicator s with Some t => indicator_rowwise t | None => True end -> num_trans (fun X => rows_out (imputer_transform s X)).
  Proof.
    intros s HI. split; [discriminate|]. split.
    - intro c. destruct (imp_guard s c) eqn:EG; [destruct (imp_ind s c) as [o|] eqn:EO|].
      + left. destruct (imp_len s o c) as [w W]. exists w, (imp_row s o). split; [exact W|]. intros M N H. unfold rows_out. apply oke_bind_l.
        eapply oke_trans; [apply (imputer_dense s c M HI); split; auto|]. rewrite EG, EO. apply oke_refl.
      + apply famt_never. intros M r N H E. unfold rows_out in E. nb E R F. apply (imputer_dense s c M HI) in F; [|split; auto]. rewrite EG, EO in F. discriminate.
      + apply famt_never. intros M r N H E. unfold rows_out in E. nb E R F. apply (imputer_dense s c M HI) in F; [|split; auto]. rewrite EG in F. discriminate.
    - intros sz dt. apply famt_never. discriminate.
  Qed.
End Transforms.
