(** The encoders, row by row. *)
From Coq Require Import String Lia.
From Verif Require Import Model.Py Model.Arith Model.Utils Model.Base Model.Hash Model.DictVec Model.Text Model.Pipeline
  Model.Encoders Model.Est.
From Verif Require Import Spec.Batch Proofs.Lib Proofs.Rows Proofs.Batch Proofs.BatchModels Proofs.BatchTransforms Proofs.Encode.
Local Open Scope nat_scope.

Section Encode.
  Context {A : arith} {L V : Type} (veq : V -> V -> bool) (vnum : A -> V).
  Variable e : encoder V.
  Let cats := en_cats e.

  (** The code and mask of one cell in a column of categories [c]. *)
  Definition code_of (c : list V) (v : V) : res nat :=
    match dlookup veq v (dict_of veq (combine c (range (length c)))) with Some i => Ok i | None => Err ValueError end.
  Definition subst_of (c : list V) (v : V) : res V := if known veq c v then Ok v else lnth c 0.
  Definition cellf (u : pystr) (c : list V) (v : V) : res (nat * bool) :=
    if negb (known veq c v) && str_eqb u (lit "error") then Err ValueError
    else y <- (v' <- subst_of c v ;; code_of c v') ;; Ok (y, known veq c v).

  Lemma mapM_mask : forall {S T B} (h : S -> res T) (b : S -> B) l, mapM (fun v => y <- h v ;; Ok (y, b v)) l = (r <- mapM h l ;; Ok (combine r (map b l))).
  Proof.
    intros S T B h b l; induction l as [|x l IH]; auto. cbn [mapM map]. destruct (h x); cbn [bind]; auto. rewrite IH. destruct (mapM h l); auto.
  Qed.
  Lemma nth_all : forall {T} (l : list T) d, l = map (fun j => nth j l d) (seq 0 (length l)).
  Proof.
    intros T l d. apply list_eq_nth. intro j. rewrite nth_error_map', nth_error_seq. destruct (Nat.ltb_spec j (length l)).
    - cbn. apply nth_error_nth'. auto.
    - apply nth_error_None. auto.
  Qed.
  Lemma set_col : forall {T} n m (F : nat -> nat -> T) new i d, length new = n ->
    set_column (tab n m F) new i n m = Ok (tab n m (fun j idx => if idx =? i then nth j new d else F j idx)).
  Proof. intros T n m F new i d <-. rewrite (nth_all new d) at 2. apply set_column_tab. Qed.
  Lemma encode_mapM : forall vals c, encode veq vals c = mapM (code_of c) vals.
  Proof. reflexivity. Qed.
  Lemma range_fun : forall {S T} (l : list S) (f : nat -> res T) (g : S -> res T), (forall j x, nth_error l j = Some x -> f j = g x) ->
    mapM f (range (length l)) = mapM g l.
  Proof.
    intros S T l f g H. rewrite <- (mapM_range_nth l g). apply mapM_ext. intros j Hj. apply in_seq in Hj.
    destruct (nth_error l j) as [x|] eqn:E; [|apply nth_error_None in E; lia]. unfold lnth. rewrite E. cbn. auto.
  Qed.

  Definition step u cols n m := body veq e u cols n m.
  Lemma step_rows : forall u cols n m F B i xi c, i < m -> lnth cols i = Ok xi -> lnth cats i = Ok c -> length xi = n -> (forall j, j < n -> B j i = true) ->
    oke (step u cols n m (tab n m F, tab n m B) i)
        (cs <- mapM (cellf u c) xi ;;
         Ok (tab n m (fun j idx => if idx =? i then fst (nth j cs (0, true)) else F j idx), tab n m (fun j idx => if idx =? i then snd (nth j cs (0, true)) else B j idx))).
  Proof.
    intros u cols n m F B i xi c Hi E1 E2 HL HB. unfold step, body. rewrite E1. cbn [bind]. fold cats. rewrite E2. cbn [bind]. rewrite check_unknown_ok.
    destruct (forallb (fun b => b) (map (known veq c) xi)) eqn:FB.
    - assert (K : forall v, In v xi -> known veq c v = true) by (intros v Hv; rewrite forallb_forall in FB; apply FB; apply in_map; auto).
      cbn [bind]. rewrite encode_mapM.
      assert (EC : mapM (cellf u c) xi = (r <- mapM (code_of c) xi ;; Ok (combine r (map (known veq c) xi)))).
      { rewrite <- mapM_mask. apply mapM_ext. intros v Hv. unfold cellf, subst_of. rewrite (K v Hv). reflexivity. }
      rewrite EC, bind_assoc. apply oke_bind_r. intros r Er. cbn [bind]. assert (LR := mapM_length _ _ _ Er).
      rewrite (set_col n m F r i 0) by congruence. cbn [bind]. apply oke_eq. f_equal. f_equal; apply tab_ext; intros j k Hj Hk; (destruct (Nat.eqb_spec k i); [|reflexivity]).
      + rewrite combine_nth by (rewrite map_length; congruence). reflexivity.
      + rewrite combine_nth by (rewrite map_length; congruence). cbn [snd]. subst k. rewrite HB by auto. symmetry.
        destruct (nth_error (map (known veq c) xi) j) as [b|] eqn:EB.
        * rewrite (nth_error_nth _ _ _ EB). apply nth_error_In in EB. apply in_map_iff in EB. destruct EB as (v & <- & Hv). auto.
        * apply nth_error_None in EB. rewrite map_length in EB. lia.
    - destruct (str_eqb u (lit "error")) eqn:EU.
      + cbn [bind]. apply forallb_false in FB. destruct FB as (b & Hb & ->). apply in_map_iff in Hb. destruct Hb as (v & Ev & Hv).
        intro t. split; [discriminate|]. intro Q. nb Q cs Q1. exfalso. clear - Q1 Ev Hv EU. revert cs Q1. induction xi as [|w xi IH]; intros cs Q1; [destruct Hv|].
        cbn [mapM] in Q1. nb Q1 y F. nb Q1 ys F'. destruct Hv as [->|Hv]; [|eapply IH; eauto]. unfold cellf in F. rewrite Ev, EU in F. discriminate.
      + rewrite (set_col n m B (map (known veq c) xi) i true) by (rewrite map_length; auto). cbn [bind]. rewrite bind_assoc.
        assert (EX : mapM (fun idx => b <- lnth (map (known veq c) xi) idx ;; (if b : bool then lnth xi idx else lnth c 0)) (range (length xi)) = mapM (subst_of c) xi).
        { apply range_fun. intros j v Ej. unfold lnth at 1. rewrite nth_error_map', Ej. cbn [option_map bind]. unfold subst_of. destruct (known veq c v); [|auto]. apply lnth_ok. auto. }
        rewrite EX. clear EX. cbn [bind].
        assert (EC : oke (mapM (cellf u c) xi) (x' <- mapM (subst_of c) xi ;; r <- mapM (code_of c) x' ;; Ok (combine r (map (known veq c) xi)))).
        { eapply oke_trans with (r' := r <- mapM (fun v => v' <- subst_of c v ;; code_of c v') xi ;; Ok (combine r (map (known veq c) xi))).
          - apply oke_eq. rewrite <- mapM_mask. apply mapM_ext. intros v _. unfold cellf. rewrite EU, andb_false_r. reflexivity.
          - rewrite <- bind_assoc. apply oke_bind_l. apply oke_sym, oke_comp. }
        eapply oke_trans; [|apply oke_bind_l; apply oke_sym; exact EC]. clear EC. rewrite !bind_assoc. apply oke_bind_r. intros x' Ex. rewrite encode_mapM. rewrite !bind_assoc.
        apply oke_bind_r. intros r Er. cbn [bind]. assert (LR := mapM_length _ _ _ Er). assert (LX := mapM_length _ _ _ Ex).
        rewrite (set_col n m F r i 0) by congruence. cbn [bind]. apply oke_eq. f_equal. f_equal; apply tab_ext; intros j k Hj Hk; (destruct (Nat.eqb_spec k i); [|reflexivity]).
        * rewrite combine_nth by (rewrite map_length; congruence). reflexivity.
        * rewrite combine_nth by (rewrite map_length; congruence). reflexivity.
  Qed.

  Definition colf u cols idx : res (list (nat * bool)) := xi <- lnth cols idx ;; c <- lnth cats idx ;; mapM (cellf u c) xi.
  Lemma fold_rows : forall u cols n m, length cols = m -> length cats = m -> Forall (fun xi : list V => length xi = n) cols ->
    forall q i F B, i + q <= m -> (forall j idx, j < n -> i <= idx -> B j idx = true) ->
    oke (foldM (step u cols n m) (seq i q) (tab n m F, tab n m B))
        (C <- mapM (colf u cols) (seq i q) ;;
         Ok (tab n m (fun j idx => if (i <=? idx) && (idx <? i + q) then fst (nth j (nth (idx - i) C []) (0, true)) else F j idx),
             tab n m (fun j idx => if (i <=? idx) && (idx <? i + q) then snd (nth j (nth (idx - i) C []) (0, true)) else B j idx))).
  Proof.
    intros u cols n m HC HK HW. induction q as [|q IH]; intros i F B Hi HB; cbn [seq foldM mapM bind].
    - apply oke_eq. f_equal. f_equal; apply tab_ext; intros j k Hj Hk; (destruct (Nat.leb_spec i k), (Nat.ltb_spec k (i + 0)); auto; lia).
    - destruct (nth_error cols i) as [xi|] eqn:E1; [|apply nth_error_None in E1; lia]. destruct (nth_error cats i) as [c|] eqn:E2; [|apply nth_error_None in E2; lia].
      assert (L1 : lnth cols i = Ok xi) by (apply lnth_ok; auto). assert (L2 : lnth cats i = Ok c) by (apply lnth_ok; auto).
      eapply oke_trans; [apply oke_bind_l; apply (step_rows u cols n m F B i xi c); auto; [lia|rewrite Forall_forall in HW; apply HW; eapply nth_error_In; eauto]|].
      unfold colf at 1. rewrite L1, L2. cbn [bind]. rewrite !bind_assoc. apply oke_bind_r. intros cs Ecs. cbn [bind].
      eapply oke_trans; [apply IH; [lia|]|].
      + intros j idx Hj Hx. destruct (Nat.eqb_spec idx i); [lia|]. apply HB; lia.
      + rewrite bind_assoc. apply oke_bind_r. intros C _. cbn [bind]. apply oke_eq.
        f_equal. f_equal; apply tab_ext; intros j k Hj Hk;
          (destruct (Nat.eqb_spec k i) as [->|NE];
            [rewrite Nat.sub_diag; destruct (Nat.leb_spec (S i) i); [lia|]; destruct (Nat.leb_spec i i); [|lia]; destruct (Nat.ltb_spec i (i + S q)); [reflexivity|lia]|
             destruct (Nat.leb_spec (S i) k), (Nat.ltb_spec k (S i + q)), (Nat.leb_spec i k), (Nat.ltb_spec k (i + S q)); try lia; cbn [andb]; auto;
             replace (k - i) with (S (k - S i)) by lia; reflexivity]).
  Qed.

  Definition row_cells (u : pystr) (r : list V) : res (list (nat * bool)) :=
    mapM (fun idx => v <- lnth r idx ;; c <- lnth cats idx ;; cellf u c v) (range (length cats)).
  Lemma enc_rows : forall u M, wide (length cats) M ->
    oke (enc_transform veq e (ll M) u) (Rs <- mapM (row_cells u) M ;; Ok (map (map fst) Rs, map (map snd) Rs)).
  Proof.
    intros u M HM. set (m := length cats) in *. rewrite enc_body.
    assert (HCOL : forall i, i < m -> exists xi, mapM (fun r => lnth r i) M = Ok xi).
    { intros i Hi. destruct HM as [_ HW]. clear - HW Hi. induction HW as [|r M Hr HW IH]; [exists []; auto|]. destruct IH as [xi E].
      destruct (nth_error r i) as [v|] eqn:Ev; [|apply nth_error_None in Ev; lia]. exists (v :: xi). cbn [mapM]. rewrite (proj2 (lnth_ok _ _ _) Ev). cbn [bind]. rewrite E. auto. }
    assert (HCOLS : exists cols, mapM (fun i => mapM (fun x => item_get x (Z.of_nat i)) (map Ls M)) (range m) = Ok cols /\ mapM (fun i => mapM (fun r => lnth r i) M) (range m) = Ok cols).
    { assert (E : mapM (fun i => mapM (fun x => item_get x (Z.of_nat i)) (map Ls M)) (range m) = mapM (fun i => mapM (fun r => lnth r i) M) (range m)).
      { apply mapM_ext. intros i _. rewrite mapM_map. apply mapM_ext. intros r _. cbn [item_get]. apply lget_nat. }
      assert (G : forall q i, i + q <= m -> exists cols, mapM (fun i => mapM (fun r => lnth r i) M) (seq i q) = Ok cols).
      { induction q as [|q IH]; intros i Hq; [exists []; auto|]. destruct (HCOL i ltac:(lia)) as [xi Ex]. destruct (IH (S i) ltac:(lia)) as [cs Ec].
        exists (xi :: cs). cbn [seq mapM]. rewrite Ex, Ec. auto. }
      destruct (G m 0 ltac:(lia)) as [cols Ec]. exists cols. split; [rewrite E|]; exact Ec. }
    destruct HCOLS as (cols & EC1 & EC2). unfold check_X. rewrite check_wide by apply HM. cbn [bind]. rewrite (shape_wide _ _ HM). cbn [bind]. rewrite Nat2Z.id.
    cbn [items ll bind]. rewrite EC1. cbn [bind]. rewrite Nat2Z.id. fold cats. fold m. rewrite Nat.eqb_refl. cbn [guard bind]. rewrite !tab_rep.
    set (n := length M).
    assert (HL : length cols = m) by (rewrite (mapM_length _ _ _ EC2); apply seq_length).
    assert (HW : Forall (fun xi : list V => length xi = n) cols).
    { apply (mapM_Forall (fun _ => True) _ _ _ _ (fun i xi _ E => mapM_length _ _ _ E)) in EC2; auto. apply Forall_forall. auto. }
    eapply oke_trans; [apply (fold_rows u cols n m HL eq_refl HW m 0); [lia|auto]|].
    (* columns *)
    assert (HK : oke (mapM (colf u cols) (seq 0 m)) (mapM (fun idx => mapM (fun r => v <- lnth r idx ;; c <- lnth cats idx ;; cellf u c v) M) (range m))).
    { apply oke_mapM. intros i Hi. apply in_seq in Hi. destruct (nth_error cats i) as [c|] eqn:E2; [|apply nth_error_None in E2; fold m in E2; lia].
      unfold colf. rewrite (proj2 (lnth_ok _ _ _) E2). cbn [bind].
      assert (EX : lnth cols i = mapM (fun r => lnth r i) M).
      { destruct (HCOL i ltac:(lia)) as [xi Ex]. rewrite Ex. apply lnth_ok. apply mapM_Forall2 in EC2. clear - EC2 Ex Hi HL.
        assert (G : forall s (l : list (list V)), Forall2 (fun i xi => mapM (fun r => lnth r i) M = Ok xi) (seq s (length l)) l -> forall k y, nth_error l k = Some y -> mapM (fun r => lnth r (s + k)) M = Ok y).
        { intros s l. revert s. induction l as [|x l IH]; intros s H k y Ek; [destruct k; discriminate|]. cbn in H. inversion H; subst. destruct k as [|k]; [injection Ek as <-; rewrite Nat.add_0_r; auto|].
          rewrite Nat.add_succ_r. apply (IH (S s)); auto. }
        unfold range in *. rewrite <- HL in EC2. destruct (nth_error cols i) as [y|] eqn:Ey; [|apply nth_error_None in Ey; lia].
        assert (G0 := G 0 cols EC2 i y Ey). cbn [plus] in G0. congruence. }
      rewrite EX. apply oke_comp. }
    eapply oke_trans; [apply oke_bind_l; exact HK|].
    pose proof (oke_rows (fun idx r => v <- lnth r idx ;; c <- lnth cats idx ;; cellf u c v) Ok (range m) M) as OR.
    assert (OR' : oke (P <- mapM (fun idx => mapM (fun r => v <- lnth r idx ;; c <- lnth cats idx ;; cellf u c v) M) (range m) ;; Ok (tab n m (fun j idx => nth j (nth idx P []) (0, true))))
                      (mapM (row_cells u) M)).
    { eapply oke_trans; [|eapply oke_trans; [exact OR|apply oke_eq; apply mapM_ext; intros r _; apply bind_ret]]. apply oke_bind_r. intros P EP. apply oke_eq. symmetry.
      assert (LP : length P = m) by (rewrite (mapM_length _ _ _ EP); apply seq_length).
      assert (WP : Forall (fun p : list (nat * bool) => length p = n) P).
      { apply (mapM_Forall (fun _ => True) _ _ _ _ (fun i xi _ E => mapM_length _ _ _ E)) in EP; auto. apply Forall_forall. auto. }
      unfold tab. apply mapM_seq_tab. intros j Hj. rewrite bind_ret. rewrite (nth_all P []) at 1. rewrite mapM_map, LP. apply mapM_seq_tab. intros idx Hx. apply lnth_ok. apply nth_error_nth'.
      rewrite Forall_forall in WP. rewrite WP; [auto|]. apply nth_In. lia. }
    eapply oke_trans; [|apply oke_bind_l; exact OR']. rewrite bind_assoc. apply oke_bind_r. intros P _. cbn [bind]. apply oke_eq.
    unfold tab. rewrite !map_map. f_equal. f_equal; apply map_ext_in; intros j _; rewrite map_map; apply map_ext_in; intros k Hk; apply in_seq in Hk;
      (destruct (Nat.ltb_spec k (0 + m)); [|lia]); rewrite Nat.sub_0_r; reflexivity.
  Qed.

  Lemma enc_never : forall u M c t, wide c M -> c <> length cats -> enc_transform veq e (ll M) u <> Ok t.
  Proof.
    intros u M c t HM N E. rewrite enc_body in E. nb E p F. destruct p as [[cols n] m]. unfold check_X in F. rewrite check_wide in F by apply HM. cbn [bind] in F. rewrite (shape_wide _ _ HM) in F. cbn [bind] in F.
    rewrite Nat2Z.id in F. nb F l F1. nb F cl F2. injection F as <- _ <-. fold cats in E. destruct (Nat.eqb_spec c (length cats)); [congruence|]. discriminate.
  Qed.
  Lemma row_cells_len : forall u r cs, row_cells u r = Ok cs -> length cs = length cats.
  Proof. intros u r cs E. rewrite (mapM_length _ _ _ E). apply seq_length. Qed.

  Definition lenv c : list V -> Prop := fun r => length r = c.
  Definition ord_row (r : list V) : res (list A) := cs <- row_cells (lit "error") r ;; mapM (fun c => conv (en_dtype e) (ofnat c)) (map fst cs).
  Lemma ordinal_famt : forall c, famt (lenv c) (fun M => rows_out (ordinal_transform (A:=A) veq e (ll M))).
  Proof.
    intro c. destruct (Nat.eq_dec c (length cats)) as [->|N].
    - left. exists (length cats), ord_row. split.
      + intros r x _ E. unfold ord_row in E. nb E cs F. rewrite (mapM_length _ _ _ E), map_length. eapply row_cells_len; eauto.
      + intros M NE HW. unfold rows_out. apply oke_bind_l. unfold ordinal_transform. eapply oke_trans; [apply oke_bind_l; apply enc_rows; split; auto|].
        rewrite bind_assoc. cbn [bind]. eapply oke_trans; [apply oke_bind_r; intros Rs _; rewrite mapM_map; apply oke_refl|]. apply oke_comp.
    - apply famt_never. intros M t NE HW E. unfold rows_out in E. nb E R F. unfold ordinal_transform in F. nb F p F1. eapply enc_never; [split; eauto|exact N|exact F1].
  Qed.

  (** One row of the one-hot matrix. *)
  Let n_values := (0%Z :: map (fun c => Z.of_nat (length c)) cats).
  Definition hot_row (cs : list (nat * bool)) : res (dict Z A) :=
    cells <- mapM (fun i => b <- lnth (map snd cs) i ;;
                            if b : bool then
                              off <- lnth n_values i ;;
                              c <- lnth (map fst cs) i ;;
                              v <- conv (en_dtype e) one ;;
                              Ok [((off + Z.of_nat c)%Z, v)]
                            else Ok []) (range (length cats)) ;;
    Ok (dict_of Z.eqb (concat cells)).
  Lemma hot_famt : forall c, famt (lenv c) (fun M => onehot_transform (A:=A) veq e (ll M)).
  Proof.
    intro c. unfold onehot_transform. destruct (en_unknown e) as [u|]; cbn [bind]; [|apply famt_never; discriminate].
    destruct (Nat.eq_dec c (length cats)) as [->|N]; [|apply famt_never; intros M t NE HW E; nb E p F; eapply enc_never; [split; eauto|exact N|exact F]].
    fold cats n_values. destruct (lget (accumu n_values) (-1)) as [size|ex] eqn:ES.
    2:{ apply famt_never. intros M t NE HW E. nb E p F. destruct p. nb E x0 F1. discriminate. }
    assert (G : forall M, M <> [] -> Forall (lenv (length cats)) M -> oke
      ('(xint, mask) <- enc_transform veq e (ll M) u ;;
       x0 <- lnth xint 0 ;;
       size <- Ok size ;;
       data <- mapM (fun j => cells <- mapM (fun i => mk <- lnth mask j ;; b <- lnth mk i ;;
                                     if b : bool then off <- lnth n_values i ;; row <- lnth xint j ;; c <- lnth row i ;; v <- conv (en_dtype e) one ;; Ok [((off + Z.of_nat c)%Z, v)]
                                     else Ok []) (range (length x0)) ;;
                    Ok (dict_of Z.eqb (concat cells))) (range (length xint)) ;;
       out <- sparse_list data (Some size) (en_dtype e) ;;
       sp <- (match en_sparse e with Some b => Ok b | None => Err AttributeError end) ;;
       if sp : bool then Ok out else D <- todense (A:=A) out ;; Ok (ll D))
      (R <- mapM (fun r => cs <- row_cells u r ;; hot_row cs) M ;;
       out <- sparse_list R (Some size) (en_dtype e) ;;
       sp <- (match en_sparse e with Some b => Ok b | None => Err AttributeError end) ;;
       if sp : bool then Ok out else D <- todense out ;; Ok (ll D))).
    { intros M NE HW. eapply oke_trans; [apply oke_bind_l; apply enc_rows; split; auto|]. rewrite bind_assoc. cbn [bind].
      eapply oke_trans; [|apply oke_bind_l; apply oke_comp]. rewrite bind_assoc. apply oke_bind_r. intros Rs ER.
      assert (NR : Rs <> []) by (eapply mapM_ne; eauto).
      assert (WR : Forall (fun cs => length cs = length cats) Rs) by (eapply (mapM_Forall (fun _ => True)); [intros x y _; apply row_cells_len|apply Forall_forall; auto|exact ER]).
      assert (E0 : exists x0, lnth (map (map fst) Rs) 0 = Ok x0 /\ length x0 = length cats).
      { destruct Rs as [|cs Rs]; [congruence|]. inversion WR; subst. exists (map fst cs). split; [reflexivity|rewrite map_length; auto]. }
      destruct E0 as (x0 & E0 & LX). rewrite E0. cbn [bind]. rewrite LX, map_length. apply oke_bind_l. apply oke_eq. apply range_fun. intros j cs Ej. unfold hot_row. f_equal. apply mapM_ext. intros i _.
      assert (J1 : lnth (map (map snd) Rs) j = Ok (map snd cs)) by (unfold lnth; rewrite nth_error_map', Ej; reflexivity).
      assert (J2 : lnth (map (map fst) Rs) j = Ok (map fst cs)) by (unfold lnth; rewrite nth_error_map', Ej; reflexivity).
      rewrite J1, J2. reflexivity. }
    destruct (en_sparse e) as [[|]|].
    - right. destruct (spl_rows (lenv (length cats)) (fun r => cs <- row_cells u r ;; hot_row cs) (Some size) (en_dtype e)) as (sz & dt & g & H). exists sz, dt, g.
      intros M NE HW. eapply oke_trans; [apply G; auto|]. eapply oke_trans; [|apply H; auto]. apply oke_bind_r. intros R _. cbn [bind]. rewrite bind_ret. apply oke_refl.
    - left. exists (Z.to_nat size), (fun r => d <- (cs <- row_cells u r ;; hot_row cs) ;; Ok (map (fun i => dget_default Z.eqb d i (dzero (en_dtype e))) (zrange 0 size))). split.
      + intros x r _ E. nb E d F. injection E as <-. rewrite map_length, zrange_length. lia.
      + intros M NE HW. eapply oke_trans; [apply G; auto|]. eapply oke_trans; [|apply oke_bind_l; apply oke_comp]. rewrite bind_assoc. apply oke_bind_r. intros R ER.
        assert (NR : R <> []) by (eapply mapM_ne; eauto). destruct R as [|r R]; [congruence|]. apply oke_refl.
    - apply famt_never. intros M t NE HW E. apply G in E; auto. nb E R F. nb E out F'. discriminate.
  Qed.

  Lemma cats_trans : forall f : arr V -> res (arr A), (forall X t, f X = Ok t -> check_X X <> Err TypeError /\ (forall R sz dt, X <> Sp R sz dt)) ->
    (forall c, famt (lenv c) (fun M => f (ll M))) ->
    row_transform (call_transform (transformer (L:=L) (fresh (V:=V) (fun X => f (as_cats vnum X))))).
  Proof.
    intros f H1 H2 k. left. apply famt_fresh. destruct k as [c|sz dt| | |c|]; cbn [build as_cats].
    - eapply famt_ext with (f' := fun l => f (ll (map (map vnum) l))).
      { intros l _ _. apply oke_eq. f_equal. unfold ll, arr_map. rewrite !map_map. reflexivity. }
      destruct (H2 c) as [(w & g & W & G)|(sz & dt & g & G)]; [left; exists w, (fun r => g (map vnum r)); split; [intros x r Hx; apply W; unfold lenv; rewrite map_length; auto|]|right; exists sz, dt, (fun r => g (map vnum r))];
        intros l N HF; rewrite <- (mapM_map (map vnum) g); apply G; try (destruct l; [congruence|discriminate]); rewrite Forall_map; eapply Forall_impl; [|exact HF| |exact HF]; intros a Ha; unfold lenv; rewrite map_length; exact Ha.
    - apply famt_never. intros l t _ _ E. destruct (H1 _ _ E) as [_ Q]. eapply Q. reflexivity.
    - apply famt_never. intros l t _ _ E. destruct (H1 _ _ E) as [Q _]. apply Q. reflexivity.
    - apply famt_never. intros l t _ _ E. destruct (H1 _ _ E) as [Q _]. apply Q. reflexivity.
    - apply H2.
    - apply famt_never. intros l t _ _ E. destruct (H1 _ _ E) as [Q _]. apply Q. reflexivity.
  Qed.
  Lemma enc_good : forall X u t, enc_transform veq e X u = Ok t -> check_X X <> Err TypeError /\ (forall R sz dt, X <> Sp R sz dt).
  Proof. intros X u t E. unfold enc_transform in E. nb E p F. split; [congruence|]. intros R sz dt ->. discriminate. Qed.
  Lemma ordinal_rows : row_transform (call_transform (transformer (A:=A) (L:=L) (fresh (V:=V) (fun X => rows_out (ordinal_transform veq e (as_cats vnum X)))))).
  Proof.
    apply (cats_trans (fun X => rows_out (ordinal_transform veq e X))); [|apply ordinal_famt]. intros X t E. unfold rows_out in E. nb E R F. unfold ordinal_transform in F. nb F p F1. eapply enc_good; eauto.
  Qed.
  Lemma onehot_rows : row_transform (call_transform (transformer (A:=A) (L:=L) (fresh (V:=V) (fun X => onehot_transform veq e (as_cats vnum X))))).
  Proof.
    apply (cats_trans (onehot_transform veq e)); [|apply hot_famt]. intros X t E. unfold onehot_transform in E. nb E u F. nb E p F1. eapply enc_good; eauto.
  Qed.
End Encode.
