(** Naive Bayes. *)
From Coq Require Import Reals Lia Lra.
From Verif Require Import Model.Py Model.Arith Model.F64 Model.XR Model.Utils Model.Base Model.NaiveBayes Model.Linear.
From Verif Require Import Spec.Matrix Spec.Reals Spec.Ensembles Spec.Bayes Spec.Linear.
From Verif Require Import Proofs.Lib Proofs.Laws Proofs.Unit Proofs.Arrays Proofs.RealLib Proofs.Argmax Proofs.Ensemble Proofs.Linear.
Local Open Scope nat_scope.

Section Gen.
  Context {A : arith} {L : Type}.

  Lemma logsumexp_ok : forall (a : list A) z, logsumexp a = Ok z <-> log_sum_exp a z.
  Proof.
    intros a z. unfold logsumexp, log_sum_exp. split.
    - intro H. inv_bind H. exists a0. split; auto. apply mapM_Forall2. auto.
    - intros (es & H & E). apply mapM_Forall2 in H. rewrite H. auto.
  Qed.

  Lemma sq_terms_ok : forall (theta sigma : list (list A)) i row qs,
    (row <> [] -> exists th sg, nth_error theta i = Some th /\ nth_error sigma i = Some sg) ->
    sq_terms theta sigma i (Ls row) = Ok qs <->
    length qs = length row /\
    (forall j x q, nth_error row j = Some x -> nth_error qs j = Some q ->
       exists th sg t s, nth_error theta i = Some th /\ nth_error sigma i = Some sg /\
         nth_error th j = Some t /\ nth_error sg j = Some s /\ sq_dist x t s q).
  Proof.
    intros theta sigma i row qs HN. unfold sq_terms. cbn [item_len bind]. split.
    - intro H. assert (Lq := mapM_length _ _ _ H). unfold range in Lq. rewrite seq_length in Lq. split; auto.
      intros j x q Hx Hq. destruct (mapM_nth_inv _ _ _ j q H Hq) as (b & Hb & E).
      unfold range in Hb. rewrite nth_error_seq in Hb. destruct (j <? length row); [|discriminate]. injection Hb as <-. simpl in E.
      unfold item_get in E. rewrite lget_nat in E. inv_bind E.
      rewrite lnth_ok in *. rewrite Hx in E0. injection E0 as <-.
      do 5 inv_bind E.
      match goal with H1 : lnth theta i = Ok ?th, H2 : lnth sigma i = Ok ?sg, H3 : lnth ?th _ = Ok ?t, H4 : lnth ?sg _ = Ok ?s, H5 : sqr _ = Ok ?d |- _ =>
        exists th, sg, t, s; apply lnth_ok in H1, H2, H3, H4; repeat split; auto; exists d; auto end.
    - intros [Lq H]. apply mapM_Forall2. apply Forall2_nth_error. unfold range. rewrite seq_length. split; auto.
      intros j b q Hb Hq. rewrite nth_error_seq in Hb. destruct (Nat.ltb_spec j (length row)) as [Hj|]; [|discriminate]. injection Hb as <-. simpl.
      unfold item_get. rewrite lget_nat. destruct (lnth_lt row j Hj) as (x & -> & Hx). cbn [bind].
      destruct (H j x q Hx Hq) as (th & sg & t & s & H1 & H2 & H3 & H4 & d & H5 & H6).
      apply lnth_ok in H1, H2, H3, H4. rewrite H1. cbn [bind]. rewrite H3. cbn [bind]. rewrite H5. cbn [bind]. rewrite H2. cbn [bind]. rewrite H4. auto.
  Qed.

  (** The scores of all rows for class [k]. *)
  Definition gauss_col (g : gaussian A L) (X : list (item A)) (i : nat) : res (list A) :=
    p <- lnth (g_prior g) i ;;
    jointi <- safe_log p ;;
    sg <- lnth (g_sigma g) i ;;
    n <- n_ij sg ;;
    jll <- mapM (sq_terms (g_theta g) (g_sigma g) i) X ;;
    let jll2 := map (fun a => mul nb_half (psum a)) jll in
    Ok (map (fun a => add (sub n a) jointi) jll2).

  Lemma gauss_col_ok : forall (g : gaussian A L) (M : list (list A)) k col p sg th,
    nth_error (g_prior g) k = Some p -> nth_error (g_sigma g) k = Some sg -> nth_error (g_theta g) k = Some th -> M <> [] ->
    gauss_col g (map Ls M) k = Ok col <-> Forall2 (gauss_score p sg th) M col.
  Proof.
    intros g M k col p sg th Hp Hs Ht N. unfold gauss_col, n_ij. apply lnth_ok in Hp, Hs. rewrite Hp. cbn [bind].
    assert (LL : forall l, l = safe_log p -> True) by auto. split.
    - intro H. do 4 inv_bind H. rewrite Hs in E0. injection E0 as <-. inv_bind E1. injection E1 as <-. injection H as <-.
      rewrite mapM_map in E2. apply mapM_Forall2 in E2, E0. rewrite map_map. apply Forall2_map_r.
      eapply Forall2_imp; [|exact E2]. intros row qs Hq. exists a, a0, qs. split; auto. split; auto.
      apply sq_terms_ok in Hq; [|apply lnth_ok in Hs; eauto]. destruct Hq as [Lq Hq]. split; auto. split; auto.
      intros j x q Hx Hqj. destruct (Hq j x q Hx Hqj) as (th' & sg' & t & s & H1 & H2 & H3 & H4 & H5).
      apply lnth_ok in Hs. rewrite Ht in H1. rewrite Hs in H2. injection H1 as <-. injection H2 as <-. eauto.
    - intro H. 
      assert (W : exists lp ls, safe_log p = Ok lp /\ Forall2 (fun s l => safe_log (mul (mul (ofZ 2) math_pi) s) = Ok l) sg ls).
      { inversion H as [|? ? ? ? H1]; subst; [congruence|]. destruct H1 as (lp & ls & qs & E1 & E2 & _). eauto. }
      destruct W as (lp & ls & Elp & Els). rewrite Elp. cbn [bind]. rewrite Hs. cbn [bind].
      assert (Els' := Els). apply mapM_Forall2 in Els'. 
      change (mapM (fun x => safe_log (mul (mul nb_two pi) x)) sg) with (mapM (fun x => safe_log (mul (mul (ofZ 2) math_pi) x)) sg). rewrite Els'. cbn [bind].
      rewrite mapM_map.
      assert (G : exists Q, mapM (fun x => sq_terms (g_theta g) (g_sigma g) k (Ls x)) M = Ok Q /\
        col = map (fun a => add (sub (mul nb_mhalf (psum ls)) (mul nb_half (psum a))) lp) Q).
      { clear N. induction H as [|row v M col H1 H2 (Q & EQ & IH)]; [exists []; auto|].
        destruct H1 as (lp' & ls' & qs & E1 & E2 & E3 & E4 & E5). exists (qs :: Q). split.
        - cbn [mapM]. assert (T : sq_terms (g_theta g) (g_sigma g) k (Ls row) = Ok qs).
          { apply sq_terms_ok; [apply lnth_ok in Hs; eauto|]. split; auto. intros j x q Hx Hq. destruct (E4 j x q Hx Hq) as (t & s & F1 & F2 & F3).
            exists th, sg, t, s. apply lnth_ok in Hs. auto. }
          rewrite T. cbn [bind]. rewrite EQ. auto.
        - cbn [map]. rewrite Elp in E1. injection E1 as <-. apply mapM_Forall2 in E2. rewrite Els' in E2. injection E2 as <-. rewrite IH, E5. auto. }
      destruct G as (Q & EQ & ->). rewrite EQ. cbn [bind]. rewrite map_map. auto.
  Qed.

  Definition fitted_gaussian (g : gaussian A L) (K : nat) : Prop :=
    1 <= K /\ length (g_classes g) = K /\ length (g_prior g) = K /\ length (g_sigma g) = K /\ length (g_theta g) = K.

  Lemma gauss_ok : forall (g : gaussian A L) K (M J : list (list A)), fitted_gaussian g K -> M <> [] ->
    jll (Gaussian g) (ll M) = Ok J <->
    rect J (length M) K /\
    (forall i k row v p sg th, nth_error M i = Some row -> cell J i k = Some v ->
       nth_error (g_prior g) k = Some p -> nth_error (g_sigma g) k = Some sg -> nth_error (g_theta g) k = Some th ->
       gauss_score p sg th row v).
  Proof.
    intros g K M J (HK & LC & LP & LS & LT) NM.
    assert (E : jll (Gaussian g) (ll M) = (J' <- mapM (gauss_col g (map Ls M)) (range K) ;; Ok (zipstar J'))).
    { unfold jll. destruct (g_classes g) eqn:EC; [simpl in LC; lia|]. unfold ll. cbn [items].
      unfold gaussian_jll. rewrite EC, LC. unfold gauss_col. apply bind_ext. intros a _. apply (transpose_ll a). }
    rewrite E.
    assert (PK : forall k, k < K -> exists p sg th, nth_error (g_prior g) k = Some p /\ nth_error (g_sigma g) k = Some sg /\ nth_error (g_theta g) k = Some th).
    { intros k Hk. destruct (lnth_lt (g_prior g) k) as (p & _ & Hp); [lia|]. destruct (lnth_lt (g_sigma g) k) as (sg & _ & Hs); [lia|].
      destruct (lnth_lt (g_theta g) k) as (th & _ & Ht); [lia|]. eauto 7. }
    assert (LM : 1 <= length M) by (destruct M; [congruence|simpl; lia]).
    split.
    - intro H. inv_bind H. injection H as <-. rename a into J'.
      assert (LJ : length J' = K) by (rewrite (mapM_length _ _ _ E0); unfold range; apply seq_length).
      assert (HC : forall k col p sg th, nth_error J' k = Some col -> nth_error (g_prior g) k = Some p -> nth_error (g_sigma g) k = Some sg -> nth_error (g_theta g) k = Some th ->
        Forall2 (gauss_score p sg th) M col).
      { intros k col p sg th Hk Hp Hs Ht. apply (gauss_col_ok g M k); auto. destruct (mapM_nth_inv _ _ _ k col E0 Hk) as (b & Hb & Ec).
        unfold range in Hb. rewrite nth_error_seq in Hb. destruct (k <? K); [|discriminate]. injection Hb as <-. auto. }
      assert (RJ : rect J' K (length M)).
      { split; auto. apply Forall_forall. intros col Hc. apply In_nth_error in Hc. destruct Hc as [k Hk].
        destruct (PK k) as (p & sg & th & Hp & Hs & Ht); [apply nth_error_lt in Hk; lia|]. symmetry. eapply Forall2_len. apply (HC k col p sg th); auto. }
      destruct (zipstar_nth J' K (length M) RJ HK) as [RZ CZ]. split; auto.
      intros i k row v p sg th Hi Hv Hp Hs Ht. assert (Hi' := nth_error_lt _ _ _ Hi). assert (Hk := nth_error_lt _ _ _ Hp).
      rewrite CZ in Hv by lia. unfold cell in Hv. destruct (nth_error J' k) as [col|] eqn:Ek; [|discriminate].
      assert (HF := HC k col p sg th Ek Hp Hs Ht). apply Forall2_nth_error in HF. eapply HF; eauto.
    - intros [RJ HJ]. destruct (zipstar_nth J (length M) K RJ LM) as [RZ CZ].
      assert (G : mapM (gauss_col g (map Ls M)) (range K) = Ok (zipstar J)).
      { apply mapM_Forall2. apply Forall2_nth_error. unfold range. rewrite seq_length. split; [symmetry; apply RZ|].
        intros k b col Hb Hc. rewrite nth_error_seq in Hb. destruct (Nat.ltb_spec k K); [|discriminate]. injection Hb as <-. simpl.
        destruct (PK k) as (p & sg & th & Hp & Hs & Ht); auto. apply (gauss_col_ok g M k col p sg th); auto.
        assert (Lc : length col = length M). { destruct RZ as [_ RZ]. rewrite Forall_forall in RZ. apply RZ. eapply nth_error_In; eauto. }
        apply Forall2_nth_error. split; auto. intros i row v Hi Hv. apply (HJ i k row v p sg th); auto.
        rewrite <- CZ; [|eapply nth_error_lt; eauto|auto]. unfold cell. rewrite Hc. auto. }
      rewrite G. cbn [bind]. f_equal. 
      destruct (zipstar_nth (zipstar J) K (length M) RZ HK) as [RZZ CZZ].
      apply (rect_ext _ _ (length M) K); auto. intros i j Hi Hj. rewrite CZZ, CZ by auto. auto.
  Qed.

  (** From scores to the public methods. *)
  Lemma nb_predict_ok : ord_ok A -> forall (n : nb A L) (M J : list (list A)), M <> [] -> jll n (ll M) = Ok J ->
    forall out, nb_predict n (ll M) = Ok out <-> Forall2 (fun s y => exists k, best s k /\ nth_error (nb_classes n) k = Some y) J out.
  Proof.
    intros OK n M J N E out. unfold nb_predict. assert (C : check_array (ll M) HError = Ok (ll M)) by (destruct M; [congruence|reflexivity]).
    rewrite C. cbn [bind]. rewrite E. cbn [bind]. apply (pick_ok _ OK).
  Qed.
  Lemma nb_log_proba_ok : forall (n : nb A L) (M J : list (list A)), M <> [] -> jll n (ll M) = Ok J ->
    forall P, nb_predict_log_proba n (ll M) = Ok P <-> Forall2 (fun s p => exists z, log_sum_exp s z /\ p = map (fun v => sub v z) s) J P.
  Proof.
    intros n M J N E P. unfold nb_predict_log_proba. assert (C : check_array (ll M) HError = Ok (ll M)) by (destruct M; [congruence|reflexivity]).
    rewrite C. cbn [bind]. rewrite E. cbn [bind]. clear. split.
    - intro H. inv_bind H. injection H as <-. apply mapM_Forall2 in E. induction E; simpl; constructor; auto. exists y. split; auto. apply logsumexp_ok. auto.
    - intro H. assert (G : exists Z, mapM logsumexp J = Ok Z /\ zip_with (fun a s => map (fun v => sub v s) a) J Z = P).
      { induction H as [|s p J P (z & Hz & ->) H (Z & EZ & IH)]; [exists []; auto|]. apply logsumexp_ok in Hz. exists (z :: Z). cbn [mapM]. rewrite Hz. cbn [bind].
        rewrite EZ. split; auto. simpl. f_equal. auto. }
      destruct G as (Z & -> & <-). auto.
  Qed.

  (** Multinomial and complement scores. *)
  Lemma multinomial_ok : forall (d : discrete A L) K (M : list (list A)),
    length (d_classes d) = K -> length (d_log_prior d) = K -> length (d_log_prob d) = K ->
    jll (Multinomial d) (ll M) = Ok (map (affine_row (d_log_prob d) (d_log_prior d)) M).
  Proof.
    intros d K M H1 H2 H3. unfold jll, ll. cbn [items bind]. rewrite mapM_map. apply mapM_pure. intros row _.
    unfold multinomial_row. rewrite dot_dense. cbn [bind]. rewrite H1.
    replace K with (length (map (dotp row) (d_log_prob d))) by (rewrite map_length; auto).
    rewrite (mapM_range_nth2 (map (dotp row) (d_log_prob d)) (d_log_prior d) (fun a b => Ok (add a b))) by (rewrite map_length; lia).
    rewrite mapM_Ok. f_equal. unfold affine_row. symmetry. apply zip_with_combine.
  Qed.
  Lemma complement_ok : forall (d : discrete A L) (M : list (list A)), length (d_classes d) <> 1 ->
    jll (Complement d) (ll M) = Ok (map (fun row => map (dotp row) (d_log_prob d)) M).
  Proof.
    intros d M H1. unfold jll, ll. cbn [items bind]. unfold complement_jll. rewrite mapM_map.
    rewrite (mapM_pure _ (fun row => map (dotp row) (d_log_prob d))) by (intros; apply dot_dense). cbn [bind].
    apply Nat.eqb_neq in H1. rewrite H1. auto.
  Qed.
  Lemma complement_one : forall (d : discrete A L) (M : list (list A)) w p, length (d_classes d) = 1 -> d_log_prob d = [w] -> d_log_prior d = [p] ->
    jll (Complement d) (ll M) = Ok (map (fun row => [add (dotp row w) p]) M).
  Proof.
    intros d M w p H1 H2 H3. unfold jll, ll. cbn [items bind]. unfold complement_jll. rewrite mapM_map.
    rewrite (mapM_pure _ (fun row => map (dotp row) (d_log_prob d))) by (intros; apply dot_dense). cbn [bind].
    rewrite H1, H2, H3. cbn [Nat.eqb map]. rewrite mapM_map. apply mapM_pure. auto.
  Qed.
End Gen.

(** Exact arithmetic. *)
Local Open Scope R_scope.
Lemma x_ofZE_fin : forall m e, (ofZE m e : XR) = XFin (IZR m * powerRZ 2 e).
Proof. reflexivity. Qed.
Lemma pi64_pos : 0 < pi64.
Proof. unfold pi64. apply Rmult_lt_0_compat; [lra|]. apply powerRZ_lt. lra. Qed.
Lemma x_safe_log : forall r, 0 < r -> safe_log (XFin r : XR) = Ok (XFin (ln r)).
Proof.
  intros r H. unfold safe_log. rewrite x_zero. simpl. 
  replace (Reqb r 0) with false by (symmetry; apply Reqb_neq; lra).
  replace (Rltb r 0) with false by (unfold Rltb; destruct (Rlt_dec r 0); auto; lra).
  replace (Rltb 0 r) with true by (unfold Rltb; destruct (Rlt_dec 0 r); auto; lra). auto.
Qed.
Lemma half_R : powerRZ 2 (-1) = / 2. Proof. simpl. lra. Qed.

Lemma gauss_XR : forall p sg th row v, 0 < p -> Forall (fun s => 0 < s) sg -> length row = length sg -> length th = length sg ->
  gauss_score (A:=XR) (XFin p) (fins sg) (fins th) (fins row) v <-> v = XFin (Rgauss p sg th row).
Proof.
  intros p sg th row v Hp Hs L1 L2.
  set (qs := map (fun p => (fst p - fst (snd p)) * (fst p - fst (snd p)) / snd (snd p)) (combine row (combine th sg))).
  assert (LQ : length qs = length row) by (unfold qs; rewrite map_length, !combine_length; lia).
  set (lsR := map (fun s => ln (2 * pi64 * s)) sg).
  assert (LS : forall ls, Forall2 (fun s l => safe_log (mul (mul (ofZ 2) math_pi) s) = Ok l) (fins sg) ls <-> ls = fins lsR).
  { assert (E : mapM (fun s : XR => safe_log (mul (mul (ofZ 2) math_pi) s)) (fins sg) = Ok (fins lsR)).
    { unfold lsR, fins. rewrite mapM_map, map_map. apply mapM_pure. intros s Hin. rewrite Forall_forall in Hs. specialize (Hs s Hin).
      rewrite x_ofZ'. unfold math_pi. rewrite x_ofZE_fin. cbn [mul XR x_mul]. fold pi64. apply x_safe_log.
      pose proof pi64_pos. apply Rmult_lt_0_compat; auto. lra. }
    intro ls. rewrite <- mapM_Forall2, E. split; [intro Q; injection Q; auto|intros ->; auto]. }
  assert (QS : forall q, length q = length row ->
     (forall j x v, nth_error (fins row) j = Some x -> nth_error q j = Some v ->
        exists t s, nth_error (fins th) j = Some t /\ nth_error (fins sg) j = Some s /\ sq_dist (A:=XR) x t s v) <-> q = fins qs).
  { assert (N : forall j x, nth_error row j = Some x -> exists t s, nth_error th j = Some t /\ nth_error sg j = Some s /\ 0 < s /\
        nth_error qs j = Some ((x - t) * (x - t) / s)).
    { intros j x Hx. assert (Lt : length th = length row) by congruence. assert (Lg : length sg = length row) by congruence.
      destruct (nth_error_len _ _ _ _ Lt Hx) as [t Ht]. destruct (nth_error_len _ _ _ _ Lg Hx) as [s Hj]. exists t, s.
      split; auto. split; auto. split. { rewrite Forall_forall in Hs. apply Hs. eapply nth_error_In; eauto. }
      unfold qs. rewrite nth_error_map'. rewrite !nth_error_combine. rewrite Hx, Ht, Hj. auto. }
    intros q Lq. split.
    - intro H. apply list_eq_nth. intro j. rewrite nth_fins. destruct (nth_error row j) as [x|] eqn:Ex.
      + destruct (N j x Ex) as (t & s & Ht & Hj & Ps & ->). destruct (nth_error_len _ _ _ _ Lq Ex) as [v' Hv]. rewrite Hv.
        destruct (H j (XFin x) v') as (t' & s' & Ht' & Hs' & d & D1 & D2); auto.
        { rewrite nth_fins, Ex. auto. }
        rewrite nth_fins, Ht in Ht'. rewrite nth_fins, Hj in Hs'. injection Ht' as <-. injection Hs' as <-.
        simpl in D1. injection D1 as <-. rewrite x_div_fin in D2 by lra. injection D2 as <-. simpl. repeat f_equal.
      + apply nth_error_None in Ex. rewrite !(proj2 (nth_error_None _ _)); auto; lia.
    - intros -> j x v' Hx Hv. rewrite nth_fins in Hx, Hv. destruct (nth_error row j) as [x'|] eqn:Ex; [|discriminate]. injection Hx as <-.
      destruct (N j x' Ex) as (t & s & Ht & Hj & Ps & Q). rewrite Q in Hv. injection Hv as <-. exists (XFin t), (XFin s).
      rewrite !nth_fins, Ht, Hj. split; auto. split; auto. eexists. split; [reflexivity|]. apply (x_div_fin ((x' - t) * (x' - t)) s). lra. }
  assert (V : add (a:=XR) (sub (mul (ofZE (-1) (-1)) (psum (fins lsR))) (mul (ofZE 1 (-1)) (psum (fins qs)))) (XFin (ln p)) = XFin (Rgauss p sg th row)).
  { rewrite !psum_fins, !x_ofZE_fin, half_R. cbn [mul sub add XR x_mul]. unfold x_sub. cbn [x_add x_opp]. f_equal. unfold Rgauss, Rsq_dists. fold qs. fold lsR. lra. }
  split.
  - intros (lp & ls & q & E1 & E2 & E3 & E4 & ->). rewrite x_safe_log in E1 by auto. injection E1 as <-. apply LS in E2. subst ls.
    rewrite fins_length in E3. apply (QS q E3) in E4. subst q. exact V.
  - intros ->. exists (XFin (ln p)), (fins lsR), (fins qs). split; [apply x_safe_log; auto|]. split; [apply LS; auto|]. rewrite !fins_length. split; auto. split; [|symmetry; exact V].
    apply QS; auto. rewrite fins_length. auto.
Qed.

Lemma logsumexp_XR : forall s, s <> [] -> forall z, log_sum_exp (A:=XR) (fins s) z <-> z = XFin (ln (Rsum (map exp s))).
Proof.
  intros s N z. rewrite <- logsumexp_ok. unfold logsumexp. rewrite mapM_safe_exp. cbn [bind]. rewrite psum_fins, x_safe_log.
  - split; [intro Q; injection Q; auto|intros ->; auto].
  - apply Rsum_pos_lt; [destruct s; [congruence|discriminate]|apply exps_pos].
Qed.
Lemma exp_lse : forall s x, s <> [] -> exp (x - ln (Rsum (map exp s))) = exp x / Rsum (map exp s).
Proof.
  intros s x N. unfold Rminus. rewrite exp_plus, exp_Ropp, exp_ln; auto.
  apply Rsum_pos_lt; [destruct s; [congruence|discriminate]|apply exps_pos].
Qed.
