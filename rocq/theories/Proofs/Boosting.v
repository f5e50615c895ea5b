(** Gradient boosting. *)
From Coq Require Import Reals Lia Lra.
From Verif Require Import Model.Py Model.Arith Model.Utils Model.Base Model.Tree Model.Ensemble.
From Verif Require Import Spec.Matrix Spec.Ensembles Spec.Trees.
From Verif Require Import Proofs.Lib Proofs.Laws Proofs.Unit Proofs.Argmax Proofs.Arrays Proofs.Arrays2 Proofs.Tree Proofs.Ensemble.
Local Open Scope nat_scope.

Section GB.
  Context {A : arith} {L : Type}.

  Definition step_col (lr : A) (col p : list A) : list A := zip_with (fun c q => add c (mul q lr)) col p.

  Lemma mapM_pairs : forall (lr : A) (col p : list A), length p = length col ->
    mapM (fun i => c <- lnth col i ;; q <- lnth p i ;; Ok (add c (mul q lr))) (range (length p)) = Ok (step_col lr col p).
  Proof.
    intros lr col p H. rewrite H. rewrite (mapM_range_nth2 col p (fun c q => Ok (add c (mul q lr)))) by auto.
    rewrite mapM_Ok. unfold step_col. rewrite zip_with_combine. auto.
  Qed.

  Lemma gb_column_ok : forall (g : gb A L) X r k (ps : list (list A)),
    Forall2 (fun row p => exists t, nth_error row k = Some t /\ reg_predict t X = Ok p /\ length p = r) (gb_estimators g) ps ->
    gb_column g X r k = Ok (fold_left (step_col (gb_lr g)) ps (rep zero r)).
  Proof.
    intros g X r k ps H. unfold gb_column.
    rewrite (foldM_range_nth (gb_estimators g) (fun col row =>
       t <- lnth row k ;; preds <- reg_predict t X ;;
       mapM (fun i => c <- lnth col i ;; p <- lnth preds i ;; Ok (add c (mul p (gb_lr g)))) (range (length preds)))).
    assert (G : forall es ps col, length col = r ->
       Forall2 (fun row p => exists t, nth_error row k = Some t /\ reg_predict t X = Ok p /\ length p = r) es ps ->
       foldM (fun col (row : list (tree A L)) => t <- lnth row k ;; preds <- reg_predict t X ;;
         mapM (fun i => c <- lnth col i ;; p <- lnth preds i ;; Ok (add c (mul p (gb_lr g)))) (range (length preds))) es col
       = Ok (fold_left (step_col (gb_lr g)) ps col)).
    { induction es as [|row es IH]; intros ps0 col Lc F; inversion F; subst; simpl; auto.
      destruct H2 as (t & Ht & Hp & Lp). apply lnth_ok in Ht. rewrite Ht. cbn [bind]. rewrite Hp. cbn [bind].
      rewrite mapM_pairs by congruence. cbn [bind]. apply IH; auto.
      unfold step_col. rewrite zip_with_length, Lp. apply Nat.min_id. }
    apply G; auto. unfold rep. apply repeat_length.
  Qed.

  Lemma fold_step_nth : forall (lr : A) r (ps : list (list A)) col i c, length col = r -> Forall (fun p => length p = r) ps ->
    nth_error col i = Some c -> exists qs, Forall2 (fun p q => nth_error p i = Some q) ps qs /\
      nth_error (fold_left (step_col lr) ps col) i = Some (fold_left (fun acc q => add acc (mul q lr)) qs c).
  Proof.
    intros lr r ps; induction ps as [|p ps IH]; intros col i c Lc HF Hc; simpl.
    - exists []. split; auto.
    - inversion HF; subst. assert (Hp : exists q, nth_error p i = Some q) by (eapply nth_error_len; eauto).
      destruct Hp as [q Hq]. destruct (IH (step_col lr col p) i (add c (mul q lr))) as (qs & F & E); auto.
      + unfold step_col. rewrite zip_with_length, H1. apply Nat.min_id.
      + unfold step_col. rewrite zip_with_nth, Hc, Hq. auto.
      + exists (q :: qs). split; auto.
  Qed.
  Lemma fold_step_length : forall (lr : A) r (ps : list (list A)) col, length col = r -> Forall (fun p => length p = r) ps ->
    length (fold_left (step_col lr) ps col) = r.
  Proof.
    intros lr r ps; induction ps as [|p ps IH]; intros col Lc HF; simpl; auto. inversion HF; subst. apply IH; auto.
    unfold step_col. rewrite zip_with_length, H1. apply Nat.min_id.
  Qed.

  Lemma gb_raw_ok : forall (g : gb A L) (M I : list (list A)) r K,
    rect M r (Z.to_nat (gb_nfeat g)) -> (0 <= gb_nfeat g)%Z -> 1 <= r -> 1 <= K ->
    gb_estimators g <> [] -> Forall (fun row => length row = K) (gb_estimators g) ->
    (exists init, gb_init g = Some init /\ get_init_raw (gb_loss g) (ll M) init = Ok I) -> rect I r K ->
    (forall row t, In row (gb_estimators g) -> In t row -> exists p, reg_predict t (ll M) = Ok p /\ length p = r) ->
    exists raw, gb_raw_predict g (ll M) = Ok raw /\ rect raw r K /\
      forall i k a, cell I i k = Some a -> exists qs,
        Forall2 (fun row q => exists t p, nth_error row k = Some t /\ reg_predict t (ll M) = Ok p /\ nth_error p i = Some q)
                (gb_estimators g) qs /\
        cell raw i k = Some (add a (fold_left (fun acc q => add acc (mul q (gb_lr g))) qs zero)).
  Proof.
    intros g M I r K RM Hn H1 HK NE HE (init & Hi & HI) RI HP.
    assert (EI : gb_raw_init g (ll M) = Ok I).
    { unfold gb_raw_init. destruct M as [|m0 M]; [destruct RM as [RM _]; simpl in RM; lia|].
      cbn [ll map check_array bind]. change (Arr (Ls m0 :: map Ls M)) with (ll (m0 :: M)).
      unfold shape1. rewrite (shape_ll' _ r (Z.to_nat (gb_nfeat g)) RM H1). cbn [bind].
      rewrite Z2Nat.id, Z.eqb_refl by auto. cbn [guard bind]. rewrite Hi. exact HI. }
    (* predictions per column *)
    assert (PC : forall k, k < K -> exists ps, Forall2 (fun row p => exists t, nth_error row k = Some t /\ reg_predict t (ll M) = Ok p /\ length p = r) (gb_estimators g) ps).
    { intros k Hk. apply Forall2_build. intros row Hrow. rewrite Forall_forall in HE.
      destruct (nth_error row k) as [t|] eqn:Et.
      - destruct (HP row t Hrow (nth_error_In _ _ Et)) as (p & Ep & Lp). exists p, t. auto.
      - apply nth_error_None in Et. rewrite (HE row Hrow) in Et. lia. }
    destruct (gb_estimators g) as [|e0 es] eqn:EE; [congruence|].
    assert (L0 : length e0 = K) by (inversion HE; auto).
    assert (CO : exists cols, mapM (fun k => n <- shape0 (ll M) ;; gb_column g (ll M) (Z.to_nat n) k) (range (length e0)) = Ok cols /\
              rect cols K r /\ forall k i, k < K -> i < r -> exists qs,
                Forall2 (fun row q => exists t p, nth_error row k = Some t /\ reg_predict t (ll M) = Ok p /\ nth_error p i = Some q) (e0 :: es) qs /\
                cell cols k i = Some (fold_left (fun acc q => add acc (mul q (gb_lr g))) qs zero)).
    { rewrite L0.
      assert (SH : shape0 (ll M) = Ok (Z.of_nat r)) by (unfold shape0; rewrite (shape_ll' _ r _ RM H1); auto).
      destruct (mapM_total (fun k => n <- shape0 (ll M) ;; gb_column g (ll M) (Z.to_nat n) k) (range K)) as [cols EC].
      { intros k Hk. unfold range in Hk. apply in_seq in Hk. destruct (PC k ltac:(lia)) as [ps Hps]. rewrite SH. cbn [bind]. rewrite Nat2Z.id.
        eexists. apply gb_column_ok. rewrite EE. exact Hps. }
      exists cols. split; auto.
      assert (CK : forall k col, nth_error cols k = Some col -> k < K /\ exists ps,
         Forall2 (fun row p => exists t, nth_error row k = Some t /\ reg_predict t (ll M) = Ok p /\ length p = r) (e0 :: es) ps /\
         col = fold_left (step_col (gb_lr g)) ps (rep zero r)).
      { intros k col Hc. destruct (mapM_nth_inv _ _ _ _ _ EC Hc) as (k' & Hk' & E). unfold range in Hk'. rewrite nth_error_seq in Hk'.
        destruct (Nat.ltb_spec k K); [|discriminate]. simpl in Hk'. inversion Hk'; subst k'. split; auto.
        destruct (PC k H) as [ps Hps]. exists ps. split; auto. rewrite SH in E. cbn [bind] in E. rewrite Nat2Z.id in E.
        rewrite (gb_column_ok g (ll M) r k ps) in E; [congruence|]. rewrite EE. auto. }
      assert (LP : forall k ps, Forall2 (fun (row : list (tree A L)) p => exists t, nth_error row k = Some t /\ reg_predict t (ll M) = Ok p /\ length p = r) (e0 :: es) ps ->
          Forall (fun p => length p = r) ps).
      { intros k ps F. clear - F. induction F as [|row p es' ps (t & _ & _ & Lp) F IH]; constructor; auto. }
      split; [split|].
      - rewrite (mapM_length _ _ _ EC). unfold range. apply seq_length.
      - apply Forall_forall. intros col Hc. apply In_nth_error in Hc. destruct Hc as [k Hk].
        destruct (CK k col Hk) as (_ & ps & Hps & ->). apply fold_step_length; [unfold rep; apply repeat_length|eauto].
      - intros k i Hk Hi'. unfold cell. destruct (nth_error cols k) as [col|] eqn:Ec.
        2:{ apply nth_error_None in Ec. rewrite (mapM_length _ _ _ EC) in Ec. unfold range in Ec. rewrite seq_length in Ec. lia. }
        destruct (CK k col Ec) as (_ & ps & Hps & ->).
        destruct (fold_step_nth (gb_lr g) r ps (rep zero r) i zero) as (qs & F & E); eauto.
        + unfold rep. apply repeat_length.
        + unfold rep. apply nth_error_repeat; auto.
        + exists qs. split; auto. clear - Hps F. revert qs F.
          induction Hps as [|row p es' ps (t & Ht & Hp & Lp) Hps IH]; intros qs F; inversion F; subst; constructor; auto.
          exists t, p. auto. }
    destruct CO as (cols & EC & RC & CC).
    destruct (zipstar_nth cols K r RC HK) as [RZ CZ].
    exists (zip_with (zip_with add) I (zipstar cols)).
    destruct (rect_zip I (zipstar cols) r K add RI RZ) as [RR CR].
    split; [|split; auto].
    - unfold gb_raw_predict. rewrite EI. cbn [bind]. unfold lnth at 1. rewrite EE. cbn [nth_error bind].
      rewrite EC. cbn [bind]. rewrite transpose_ll. cbn [bind]. apply operate_2d_ll with (r := r) (c := K); auto.
    - intros i k a Ha.
      assert (Hik : i < r /\ k < K).
      { destruct RI as [LI RI]. unfold cell in Ha. destruct (nth_error I i) as [row|] eqn:E; [|discriminate]. split.
        - rewrite <- LI. apply nth_error_Some. congruence.
        - rewrite Forall_forall in RI. rewrite <- (RI row) by (eapply nth_error_In; eauto). apply nth_error_Some. congruence. }
      destruct Hik as [Hi' Hk]. destruct (CC k i Hk Hi') as (qs & F & E). exists qs. split; auto.
      rewrite CR, Ha, (CZ k i Hk Hi'), E. auto.
  Qed.
End GB.

(** Exact arithmetic. *)
From Verif Require Import Model.XR Spec.Reals Proofs.RealLib.
Local Open Scope R_scope.

Lemma fins_all : forall (l : list XR), Forall (fun v => exists x, v = XFin x) l -> exists rs, l = fins rs.
Proof.
  intros l H; induction H as [|v l [x ->] H [rs ->]]; [exists []; auto|]. exists (x :: rs). auto.
Qed.
Lemma finss_all : forall (M : list (list XR)) r c, rect M r c ->
  (forall i j, (i < r)%nat -> (j < c)%nat -> exists x, cell M i j = Some (XFin x)) -> exists Q, M = finss Q /\ rect Q r c.
Proof.
  intros M r c [LM RM] H. assert (G : exists Q, M = finss Q).
  { assert (HF : Forall (fun row => exists rs, row = fins rs) M).
    { apply Forall_forall. intros row Hrow. pose proof Hrow as Hin. apply In_nth_error in Hrow. destruct Hrow as [i Hi].
      apply fins_all. apply Forall_forall. intros v Hv. apply In_nth_error in Hv. destruct Hv as [j Hj].
      rewrite Forall_forall in RM. specialize (RM _ Hin).
      destruct (H i j) as [x Hx].
      - rewrite <- LM. apply nth_error_Some. congruence.
      - rewrite <- RM. eapply nth_error_lt; exact Hj.
      - unfold cell in Hx. rewrite Hi in Hx. assert (E : Some v = Some (XFin x)) by (etransitivity; [symmetry; exact Hj|exact Hx]). inversion E. eauto. }
    clear - HF. induction HF as [|row M [rs ->] HF [Q ->]]; [exists []; auto|]. exists (rs :: Q). auto. }
  destruct G as [Q ->]. exists Q. split; auto. apply rect_finss. split; auto.
Qed.

Lemma eps_pos : 0 < eps.
Proof. unfold eps. apply Rmult_lt_0_compat; [lra|]. apply powerRZ_lt. lra. Qed.
Lemma eps_small : eps < / 1000000.
Proof.
  unfold eps. change (powerRZ 2 (-75)) with (/ powerRZ 2 75). apply Rmult_lt_reg_r with (powerRZ 2 75); [apply powerRZ_lt; lra|].
  rewrite Rmult_assoc, Rinv_l by (apply powerRZ_NOR; lra).
  change (powerRZ 2 75) with (pow 2 75). replace (pow 2 75) with (IZR (2 ^ 75)) by (rewrite pow_IZR; auto).
  apply Rmult_lt_reg_l with 1000000; [lra|]. rewrite <- (Rmult_assoc _ (/ _)), Rinv_r by lra.
  rewrite Rmult_1_r, Rmult_1_l. rewrite <- !mult_IZR. apply IZR_lt. reflexivity.
Qed.
Lemma clipR_bounds : forall p, eps <= clipR p <= 1 - eps.
Proof.
  intro p. pose proof eps_pos. pose proof eps_small. unfold clipR. split; [apply Rmax_l|].
  apply Rmax_lub; [lra|apply Rmin_r].
Qed.
Lemma EPS_XR : (EPS : XR) = XFin eps. Proof. reflexivity. Qed.
Lemma clip_XR : forall p, clip (A:=XR) (XFin p) EPS (sub one EPS) = XFin (clipR p).
Proof.
  intro p. pose proof eps_pos. pose proof eps_small. unfold clip, gtb. rewrite EPS_XR, x_one.
  cbn [sub XR x_sub x_add x_opp ltb x_ltb]. change (1 + - eps) with (1 - eps). unfold clipR.
  destruct (Rltb p eps) eqn:E1.
  - apply Rltb_lt in E1. f_equal. rewrite Rmax_left; auto. eapply Rle_trans; [apply Rmin_l|lra].
  - destruct (Rltb (1 - eps) p) eqn:E2.
    + apply Rltb_lt in E2. f_equal. rewrite Rmin_right by lra. rewrite Rmax_right; lra.
    + f_equal. assert (eps <= p) by (apply Rnot_lt_le; intro C; apply Rltb_lt in C; congruence).
      assert (p <= 1 - eps) by (apply Rnot_lt_le; intro C; apply Rltb_lt in C; congruence).
      rewrite Rmin_left by lra. rewrite Rmax_right; lra.
Qed.
Lemma safe_log_XR : forall r, 0 < r -> safe_log (A:=XR) (XFin r) = Ok (XFin (ln r)).
Proof.
  intros r H. unfold safe_log. rewrite x_zero. cbn [eqb XR x_eqb ltb x_ltb logv x_log].
  replace (Reqb r 0) with false by (symmetry; apply Reqb_neq; lra).
  replace (Rltb r 0) with false by (symmetry; apply not_true_iff_false; rewrite Rltb_lt; lra).
  replace (Rltb 0 r) with true by (symmetry; apply Rltb_lt; auto). auto.
Qed.

Lemma mapM_finss : forall (f : XR -> res XR) (h : R -> R) (Q : list (list R)),
  (forall x, f (XFin x) = Ok (XFin (h x))) -> mapM (mapM f) (finss Q) = Ok (finss (map (map h) Q)).
Proof.
  intros f h Q H. unfold finss. rewrite mapM_map. rewrite (mapM_pure _ (fun row => fins (map h row))).
  - rewrite map_map. auto.
  - intros row _. unfold fins. rewrite mapM_map. rewrite (mapM_pure _ (fun x => XFin (h x) : XR)) by auto. rewrite map_map. auto.
Qed.

Lemma init_multi_XR : forall n X (init : proba_fun XR) P, init X = Ok (finss P) ->
  get_init_raw (LMulti n) X init = Ok (finss (map (map (fun p => ln (clipR p))) P)).
Proof.
  intros n X init P H. unfold get_init_raw. rewrite H. cbn [bind]. rewrite apply_2d_ll. apply mapM_finss.
  intro x. rewrite clip_XR. apply safe_log_XR. pose proof (clipR_bounds x). pose proof eps_pos. lra.
Qed.

Lemma init_binary_XR : forall (f : XR -> XR) (h : R -> R) P r, rect P r 2 -> (forall x, f (XFin x) = XFin (h x)) ->
  init_binary f (finss P) = Ok (finss (map (fun row => [h (logit (clipR (nth 1 row 0)))]) P)).
Proof.
  intros f h P r [_ RP] H. unfold init_binary.
  rewrite (mapM_pure _ (fun a => clip (nth 1 a zero) EPS (sub one EPS))).
  2:{ intros a Ha. unfold finss in Ha. apply in_map_iff in Ha. destruct Ha as (row & <- & Hr).
      rewrite Forall_forall in RP. specialize (RP row Hr). destruct row as [|x [|y [|]]]; try discriminate. reflexivity. }
  cbn [bind]. rewrite mapM_map. unfold finss. rewrite mapM_map.
  rewrite (mapM_pure _ (fun row => fins [h (logit (clipR (nth 1 row 0)))])).
  - rewrite map_map. auto.
  - intros row Hr. rewrite Forall_forall in RP. specialize (RP row Hr). destruct row as [|x [|y [|]]]; try discriminate.
    cbn [fins map nth]. rewrite clip_XR. set (q := clipR y). pose proof (clipR_bounds y) as B. fold q in B. pose proof eps_pos.
    rewrite x_one. cbn [sub XR x_sub x_add x_opp]. rewrite x_div_fin by lra. cbn [bind].
    rewrite safe_log_XR by (apply Rdiv_lt_0_compat; lra). cbn [bind]. rewrite H. unfold logit. auto.
Qed.

Lemma raw_multi_XR : forall n (Q : list (list R)) r, rect Q r n -> (1 <= n)%nat ->
  raw_to_proba (LMulti n) (finss Q) = Ok (finss (map softmax Q)).
Proof.
  intros n Q r [LQ RQ] Hn. unfold raw_to_proba. rewrite apply_2d_ll.
  rewrite (mapM_finss _ exp) by reflexivity. cbn [bind].
  unfold apply_axis_2d. cbn [issparse ll andb]. change (1 =? 1)%Z with true. cbv iota. cbn [items bind].
  unfold ll at 1. cbn [items bind]. rewrite mapM_map. cbn [iter_item bind]. rewrite mapM_Ok. cbn [bind].
  assert (PQ : forall row, In row Q -> 0 < Rsum (map exp row)).
  { intros row Hr. rewrite Forall_forall in RQ. specialize (RQ row Hr). apply Rsum_pos_lt; [|apply exps_pos].
    destruct row; [simpl in RQ; lia|discriminate]. }
  rewrite mapM_map. unfold finss at 1. rewrite mapM_map.
  rewrite (mapM_pure _ (fun row => XFin (ln (Rsum row)) : XR)).
  2:{ intros e He. apply in_map_iff in He. destruct He as (row & <- & Hr). rewrite psum_fins. apply safe_log_XR. auto. }
  cbn [bind]. rewrite map_map.
  set (raw := finss Q).
  assert (Lr : length raw = length Q) by (unfold raw, finss; apply map_length). rewrite Lr.
  transitivity (mapM (fun index => row <- lnth Q index ;; Ok (fins (softmax row))) (range (length Q))).
  - apply mapM_ext. intros i Hi. unfold range in Hi. apply in_seq in Hi.
    destruct (lnth_lt Q i ltac:(lia)) as (row & E1 & E2). rewrite E1. cbn [bind].
    pose proof (nth_error_In _ _ E2) as Hin. specialize (PQ row Hin). rewrite Forall_forall in RQ. specialize (RQ row Hin).
    assert (E3 : nth_error raw i = Some (fins row)) by (unfold raw, finss; rewrite nth_error_map', E2; auto).
    rewrite <- RQ.
    transitivity (mapM (fun i => x <- lnth row i ;; Ok (XFin (exp x / Rsum (map exp row)) : XR)) (range (length row))).
    + apply mapM_ext. intros j Hj. unfold range in Hj. apply in_seq in Hj. 
      destruct (lnth_lt row j ltac:(lia)) as (x & X1 & X2). rewrite X1. cbn [bind].
      unfold lnth. rewrite E3. cbn [bind]. unfold fins. rewrite nth_error_map', X2. cbn [option_map bind].
      rewrite nth_error_map', E2. cbn [option_map bind]. unfold safe_exp. cbn [sub XR x_sub x_add x_opp expv x_exp]. do 2 f_equal.
      change (x + - ln (Rsum (map exp row))) with (x - ln (Rsum (map exp row))).
      unfold Rminus. rewrite exp_plus, exp_Ropp, exp_ln by auto. auto.
    + rewrite (mapM_range_nth row (fun x => Ok (XFin (exp x / Rsum (map exp row)) : XR))), mapM_Ok.
      unfold softmax, fins. rewrite map_map. auto.
  - rewrite (mapM_range_nth Q (fun row => Ok (fins (softmax row)))), mapM_Ok. unfold finss. rewrite map_map. auto.
Qed.

Lemma binary_proba_ok : forall {A : arith} (f : A -> res A) (vs p : list A), vs <> [] -> mapM f vs = Ok p ->
  binary_proba f (map (fun v => [v]) vs) = Ok (map (fun x => [sub one x; x]) p).
Proof.
  intros A f vs p N H. unfold binary_proba. destruct vs as [|v0 vs]; [congruence|].
  set (raw := map (fun v => [v]) (v0 :: vs)).
  assert (RR : rect raw (length (v0 :: vs)) 1).
  { split; unfold raw; [apply map_length|]. apply Forall_map. apply Forall_forall. auto. }
  unfold shape1. rewrite (shape_ll' raw _ 1 RR) by (simpl; lia). cbn [bind]. change (Z.of_nat 1) with 1%Z. cbv iota.
  unfold ravel. cbn [issparse ll]. fold (ll raw). rewrite transpose_ll. cbn [bind].
  assert (Z : forall l : list A, l <> [] -> zipstar (map (fun v => [v]) l) = [l]).
  { induction l as [|a l IH]; intro Nl; [congruence|]. destruct l as [|b l]; auto.
    change (zipstar (map (fun v => [v]) (a :: b :: l))) with (zip_with cons [a] (zipstar (map (fun v => [v]) (b :: l)))).
    rewrite IH by discriminate. auto. }
  unfold raw. rewrite Z by discriminate. cbn [lnth nth_error bind]. unfold lnth. cbn [nth_error bind]. rewrite H. cbn [bind].
  rewrite transpose_ll. f_equal. simpl zipstar. clear. induction p; simpl; auto. rewrite IHp. auto.
Qed.

Lemma logistic_pos : forall x, 0 < logistic x < 1.
Proof.
  intro x. unfold logistic. pose proof (exp_pos (- x)). split; [apply Rinv_0_lt_compat; lra|].
  rewrite <- Rinv_1. apply Rinv_lt_contravar; lra.
Qed.

Lemma raw_binary_XR : forall (rs : list R), rs <> [] ->
  raw_to_proba (A:=XR) LBinary (finss (map (fun x => [x]) rs)) = Ok (finss (map (fun x => [1 - logistic x; logistic x]) rs)).
Proof.
  intros rs N. unfold raw_to_proba.
  replace (finss (map (fun x => [x]) rs)) with (map (fun v : XR => [v]) (fins rs)).
  2:{ unfold finss, fins. rewrite !map_map. auto. }
  rewrite (binary_proba_ok expit (fins rs) (fins (map logistic rs))).
  - f_equal. unfold finss, fins. rewrite !map_map. apply map_ext. intro x. cbn [map]. rewrite x_one. auto.
  - destruct rs; [congruence|discriminate].
  - unfold fins. rewrite mapM_map, map_map. apply mapM_pure. intros x _. apply expit_XR.
Qed.
Lemma raw_exponential_XR : forall (rs : list R), rs <> [] ->
  raw_to_proba (A:=XR) LExponential (finss (map (fun x => [x]) rs)) =
  Ok (finss (map (fun x => [1 - 2 * logistic x; 2 * logistic x]) rs)).
Proof.
  intros rs N. unfold raw_to_proba.
  replace (finss (map (fun x => [x]) rs)) with (map (fun v : XR => [v]) (fins rs)).
  2:{ unfold finss, fins. rewrite !map_map. auto. }
  rewrite (binary_proba_ok _ (fins rs) (fins (map (fun x => 2 * logistic x) rs))).
  - f_equal. unfold finss, fins. rewrite !map_map. apply map_ext. intro x. cbn [map]. rewrite x_one. auto.
  - destruct rs; [congruence|discriminate].
  - unfold fins. rewrite mapM_map, map_map. apply mapM_pure. intros x _. rewrite expit_XR. cbn [bind].
    unfold two. rewrite x_ofZ'. cbn [mul XR x_mul]. rewrite Rmult_comm. auto.
Qed.

Lemma fold_lr : forall (lr : R) (qs : list R) (a : R), fold_left (fun acc q => add (a:=XR) acc (mul (a:=XR) q (XFin lr))) (fins qs) (XFin a) = XFin (a + lr * Rsum qs).
Proof.
  intros lr qs; induction qs as [|q qs IH]; intro a; simpl fold_left.
  - simpl. f_equal. ring.
  - cbn [fins map fold_left]. change (map (fun x : R => XFin x) qs) with (fins qs). 
    etransitivity; [apply (IH (a + q * lr))|]. simpl. f_equal. ring.
Qed.

Lemma gb_raw_exact : forall (L : Type) (g : gb XR L) (M : list (list XR)) (I : list (list R)) r K lr,
  rect M r (Z.to_nat (gb_nfeat g)) -> (0 <= gb_nfeat g)%Z -> (1 <= r)%nat -> (1 <= K)%nat -> gb_lr g = XFin lr ->
  gb_estimators g <> [] -> Forall (fun row => length row = K) (gb_estimators g) ->
  (exists init, gb_init g = Some init /\ get_init_raw (gb_loss g) (ll M) init = Ok (finss I)) -> rect I r K ->
  (forall row t, In row (gb_estimators g) -> In t row -> exists p, reg_predict t (ll M) = Ok (fins p) /\ length p = r) ->
  exists raw, gb_raw_predict g (ll M) = Ok (finss raw) /\ rect raw r K /\
    forall i k a, cell I i k = Some a -> exists qs,
      Forall2 (fun row q => exists t p, nth_error row k = Some t /\ reg_predict t (ll M) = Ok (fins p) /\ nth_error p i = Some q)
              (gb_estimators g) qs /\
      cell raw i k = Some (a + lr * Rsum qs).
Proof.
  intros L g M I r K lr RM Hn H1 HK HL NE HE HI RI HP.
  destruct (gb_raw_ok g M (finss I) r K) as (raw & E & RR & HC); auto.
  - apply rect_finss. auto.
  - intros row t H2 H3. destruct (HP row t H2 H3) as (p & E & Lp). exists (fins p). rewrite fins_length. auto.
  - assert (HV : forall i k a, cell I i k = Some a -> exists qs,
      Forall2 (fun row q => exists t p, nth_error row k = Some t /\ reg_predict t (ll M) = Ok (fins p) /\ nth_error p i = Some q)
              (gb_estimators g) qs /\ cell raw i k = Some (XFin (a + lr * Rsum qs))).
    { intros i k a Ha. destruct (HC i k (XFin a)) as (qs & HQ & Hq).
      { rewrite cell_finss, Ha. auto. }
      assert (G : exists qs', qs = fins qs' /\ Forall2 (fun row q => exists t p, nth_error row k = Some t /\ reg_predict t (ll M) = Ok (fins p) /\ nth_error p i = Some q)
              (gb_estimators g) qs').
      { clear Hq. revert qs HQ HP. generalize (gb_estimators g). intros es qs HQ. induction HQ as [|row q es qs (t & p & E1 & E2 & E3) HQ IH]; intro HP.
        - exists []. split; auto.
        - destruct IH as (qs' & -> & IH); [intros; apply (HP row0 t0); simpl; auto|].
          destruct (HP row t) as (p' & E4 & E5); [simpl; auto|eapply nth_error_In; eauto|]. rewrite E4 in E2. inversion E2; subst p.
          unfold fins in E3. rewrite nth_error_map' in E3. destruct (nth_error p' i) as [q'|] eqn:E6; [|discriminate].
          inversion E3; subst q. exists (q' :: qs'). split; auto. constructor; auto. exists t, p'. auto. }
      destruct G as (qs' & -> & HQ'). exists qs'. split; auto. rewrite Hq, HL, x_zero. f_equal.
      etransitivity; [apply f_equal; apply fold_lr|]. simpl. f_equal. ring. }
    destruct (finss_all raw r K RR) as (Q & -> & RQ).
    { intros i j Hi Hj. destruct (rect_cell _ _ _ i j RI Hi Hj) as [a Ha]. destruct (HV i j a Ha) as (qs & _ & Hc). eauto. }
    exists Q. split; auto. split; auto. intros i k a Ha. destruct (HV i k a Ha) as (qs & HQ & Hc). exists qs. split; auto.
    rewrite cell_finss in Hc. destruct (cell Q i k); inversion Hc. auto.
Qed.

Lemma one_column : forall {T} (M : list (list T)) r, rect M r 1 -> exists rs, M = map (fun x => [x]) rs /\ length rs = r.
Proof.
  intros T M r [LM RM]. revert r LM. induction RM as [|row M Hr RM IH]; intros r LM; [exists []; auto|].
  destruct r; [discriminate|]. simpl in LM. destruct (IH r) as (rs & -> & Lr); [lia|].
  destruct row as [|x [|]]; try discriminate. exists (x :: rs). split; auto. simpl. lia.
Qed.
Lemma half_XR : (half : XR) = XFin (1 / 2).
Proof. unfold half. cbn. unfold x_ofZE. f_equal. simpl. lra. Qed.
