(** C16-C17: gradient boosting (pure_sklearn/ensemble/_gb.py, _gb_losses.py). *)
From Coq Require Import Reals Lia Lra.
From Flocq Require Import Core BinarySingleNaN.
From Verif Require Import Model.Py Model.Arith Model.F64 Model.XR Model.Utils Model.Base Model.Tree Model.Ensemble.
From Verif Require Import Spec.Matrix Spec.Ensembles Spec.Reals Spec.Libm Spec.Trees.
From Verif Require Import Proofs.Lib Proofs.Laws Proofs.Unit Proofs.Arrays Proofs.Arrays2 Proofs.CRLibm Proofs.RealLib
  Proofs.Argmax Proofs.Tree Proofs.Ensemble Proofs.Boosting.
Local Open Scope nat_scope.

(** The predictions, for input row [i], of the [k]-th tree of every stage. *)
Definition stage_predictions {A : arith} {L} (g : gb A L) (M : list (list A)) (i k : nat) (qs : list A) : Prop :=
  Forall2 (fun row q => exists t p, nth_error row k = Some t /\ reg_predict t (ll M) = Ok p /\ nth_error p i = Some q)
          (gb_estimators g) qs.

(** An ensemble with [K] trees per stage and an r x c input matrix [M] of the
    expected width, on which every tree predicts. *)
Definition gb_fits {A : arith} {L} (g : gb A L) (M : list (list A)) (r K : nat) : Prop :=
  rect M r (Z.to_nat (gb_nfeat g)) /\ (0 <= gb_nfeat g)%Z /\ 1 <= r /\ 1 <= K /\
  gb_estimators g <> [] /\ Forall (fun row => length row = K) (gb_estimators g) /\
  (forall row t, In row (gb_estimators g) -> In t row -> exists p, reg_predict t (ll M) = Ok p /\ length p = r).

(** C16.  In any arithmetic, the raw score of row i and class k is the initial
    score plus the (left to right) sum of the tree predictions times the learning rate. *)
Theorem C16_raw : forall (A : arith) (L : Type) (g : gb A L) (M I : list (list A)) init r K,
  gb_fits g M r K -> gb_init g = Some init -> get_init_raw (gb_loss g) (ll M) init = Ok I -> rect I r K ->
  exists raw, gb_raw_predict g (ll M) = Ok raw /\ rect raw r K /\
    forall i k a, cell I i k = Some a -> exists qs, stage_predictions g M i k qs /\
      cell raw i k = Some (add a (fold_left (fun acc q => add acc (mul q (gb_lr g))) qs zero)).
Proof.
  intros A L g M I init r K (RM & Hn & H1 & HK & NE & HE & HP) Hi HI RI.
  apply (gb_raw_ok g M I r K); auto. exists init. auto.
Qed.
Print Assumptions C16_raw.

(** The same, in exact arithmetic, where every tree value is finite. *)
Definition gb_exact {L} (g : gb XR L) (M : list (list XR)) (P : list (list R)) (lr : R) (r K C : nat) : Prop :=
  rect M r (Z.to_nat (gb_nfeat g)) /\ (0 <= gb_nfeat g)%Z /\ 1 <= r /\ 1 <= K /\ gb_lr g = XFin lr /\
  gb_estimators g <> [] /\ Forall (fun row => length row = K) (gb_estimators g) /\
  (exists init, gb_init g = Some init /\ init (ll M) = Ok (finss P)) /\ rect P r C /\
  (forall row t, In row (gb_estimators g) -> In t row -> exists p, reg_predict t (ll M) = Ok (fins p) /\ length p = r).
Definition stage_reals {L} (g : gb XR L) (M : list (list XR)) (i k : nat) (qs : list R) : Prop :=
  Forall2 (fun row q => exists t p, nth_error row k = Some t /\ reg_predict t (ll M) = Ok (fins p) /\ nth_error p i = Some q)
          (gb_estimators g) qs.

(** Multinomial deviance: raw score = log of the (clipped) prior + lr * sum of
    the predictions; probabilities are the softmax; predict is the largest. *)
Theorem C16_multi_exact : forall (L : Type) (g : gb XR L) M P lr r K,
  gb_exact g M P lr r K K -> gb_loss g = LMulti K ->
  exists raw, gb_raw_predict g (ll M) = Ok (finss raw) /\ rect raw r K /\
    (forall i k p, cell P i k = Some p -> exists qs, stage_reals g M i k qs /\
       cell raw i k = Some (ln (clipR p) + lr * Rsum qs)%R) /\
    gb_predict_proba g (ll M) = Ok (finss (map softmax raw)) /\ Forall distribution (map softmax raw) /\
    forall out, gb_predict g (ll M) = Ok out <->
      Forall2 (fun s y => exists k, Rargmax s k /\ nth_error (gb_classes g) k = Some y) raw out.
Proof.
  intros L g M P lr r K (RM & Hn & H1 & HK & HL & NE & HE & (init & Hi & HI) & RP & HP) LS.
  destruct (gb_raw_exact L g M (map (map (fun p => ln (clipR p))) P) r K lr) as (raw & E & RR & HC); auto.
  { exists init. split; auto. rewrite LS. apply init_multi_XR. auto. }
  { destruct RP as [RP1 RP2]. split; [rewrite map_length; auto|]. apply Forall_map. eapply Forall_impl; [|exact RP2].
    intros a Ha. simpl. rewrite map_length. auto. }
  assert (EP : gb_predict_proba g (ll M) = Ok (finss (map softmax raw))).
  { unfold gb_predict_proba. rewrite E. cbn [bind]. rewrite LS. apply raw_multi_XR with r; auto. }
  exists raw. split; auto. split; auto. split; [|split; auto; split].
  - intros i k p Hp. destruct (HC i k (ln (clipR p))) as (qs & HQ & Hq); [|exists qs; auto].
    unfold cell in *. rewrite nth_error_map'. destruct (nth_error P i) as [row|]; [|discriminate]. simpl.
    rewrite nth_error_map', Hp. auto.
  - apply Forall_map. destruct RR as [_ RR]. eapply Forall_impl; [|exact RR]. intros row Hr. apply softmax_dist.
    destruct row; [simpl in Hr; lia|discriminate].
  - intro out. unfold gb_predict. rewrite EP. cbn [bind]. rewrite (pick_ok (gb_classes g) XR_ord). unfold finss. rewrite map_map.
    rewrite Forall2_map_l. apply Forall2_iff. intros s y. split; intros (k & B & Y); exists k; split; auto.
    + apply Rargmax_softmax, best_fins, B.
    + apply best_fins, Rargmax_softmax, B.
Qed.
Print Assumptions C16_multi_exact.

(** Binomial deviance. *)
Theorem C16_binary_exact : forall (L : Type) (g : gb XR L) M P lr r c0 c1,
  gb_exact g M P lr r 1 2 -> gb_loss g = LBinary -> gb_classes g = [c0; c1] ->
  exists rs, gb_raw_predict g (ll M) = Ok (finss (map (fun s => [s]) rs)) /\ length rs = r /\
    (forall i p, cell P i 1 = Some p -> exists qs, stage_reals g M i 0 qs /\
       nth_error rs i = Some (logit (clipR p) + lr * Rsum qs)%R) /\
    gb_predict_proba g (ll M) = Ok (finss (map (fun s => [(1 - logistic s)%R; logistic s]) rs)) /\
    Forall (fun s => distribution [(1 - logistic s)%R; logistic s]) rs /\
    gb_predict g (ll M) = Ok (map (fun s => if Rlt_dec 0 s then c1 else c0) rs).
Proof.
  intros L g M P lr r c0 c1 (RM & Hn & H1 & HK & HL & NE & HE & (init & Hi & HI) & RP & HP) LS CL.
  destruct (gb_raw_exact L g M (map (fun row => [logit (clipR (nth 1 row 0%R))]) P) r 1 lr) as (raw & E & RR & HC); auto.
  { exists init. split; auto. rewrite LS. unfold get_init_raw. rewrite HI. cbn [bind]. apply (init_binary_XR (fun v => v) (fun v => v) P r); auto. }
  { destruct RP as [RP1 _]. split; [rewrite map_length; auto|]. apply Forall_map. apply Forall_forall. auto. }
  destruct (one_column raw r RR) as (rs & -> & Lr).
  assert (EP : gb_predict_proba g (ll M) = Ok (finss (map (fun s => [(1 - logistic s)%R; logistic s]) rs))).
  { unfold gb_predict_proba. rewrite E. cbn [bind]. rewrite LS. apply raw_binary_XR. destruct rs; [simpl in *; lia|discriminate]. }
  exists rs. split; auto. split; auto. split; [|split; auto; split].
  - intros i p Hp. destruct (HC i 0 (logit (clipR p))) as (qs & HQ & Hq).
    + unfold cell in *. rewrite nth_error_map'. destruct (nth_error P i) as [row|]; [|discriminate]. simpl.
      destruct row as [|a [|b row]]; try discriminate. inversion Hp. auto.
    + exists qs. split; auto. unfold cell in Hq. rewrite nth_error_map' in Hq. destruct (nth_error rs i); simpl in Hq; [auto|discriminate].
  - apply Forall_forall. intros s _. pose proof (logistic_pos s). split; [repeat constructor; lra|simpl; lra].
  - unfold gb_predict. rewrite EP. cbn [bind]. apply (pick_ok (gb_classes g) XR_ord). unfold finss. rewrite map_map, CL.
    rewrite Forall2_map_l, Forall2_map_r. clear. induction rs as [|s rs IH]; constructor; auto.
    eexists. split; [apply best_fins, Rargmax_two; reflexivity|]. 
    assert (Q : (1 - logistic s < logistic s <-> 0 < s)%R).
    { rewrite <- (logistic_lt 0 s), logistic_0. lra. }
    destruct (Rlt_dec (1 - logistic s) (logistic s)), (Rlt_dec 0 s); try lra; auto; exfalso; tauto.
Qed.
Print Assumptions C16_binary_exact.

(** Binomial deviance on doubles: both probabilities are in [0,1] whatever the
    (non-NaN) raw scores, infinities included. *)
Theorem C16_binary_float : forall (m : libm) (vs : list (F64 m)), exp_nonneg m ->
  vs <> [] -> Forall (fun v => isnan v = false) vs ->
  exists ps, raw_to_proba LBinary (map (fun v => [v]) vs) = Ok (map (fun p => [sub one p; p]) ps) /\
    Forall2 (fun v p => expit v = Ok p /\ leb zero p = true /\ leb p one = true /\
                        leb zero (sub one p) = true /\ leb (sub one p) one = true) vs ps.
Proof.
  intros m vs HE N HV. assert (H : exists ps, mapM expit vs = Ok ps /\ Forall2 (fun v p => expit v = Ok p /\ leb zero p = true /\ leb p one = true /\
                        leb zero (sub one p) = true /\ leb (sub one p) one = true) vs ps).
  { clear N. induction HV as [|v vs Hv HV (ps & E & IH)]; [exists []; auto|].
    destruct (expit_unit m HE v Hv) as (p & Ep & P0 & P1). exists (p :: ps). split; [cbn [mapM]; rewrite Ep; cbn [bind]; rewrite E; auto|].
    constructor; auto. pose proof (one_minus_unit m p P0 P1). tauto. }
  destruct H as (ps & E & H). exists ps. split; auto. apply binary_proba_ok; auto.
Qed.
Print Assumptions C16_binary_float.

(** predict is the label at the first largest probability (doubles). *)
Theorem C16_predict : forall (m : libm) (L : Type) (g : gb (F64 m) L) X out,
  gb_predict g X = Ok out <->
  exists P, gb_predict_proba g X = Ok P /\
    Forall2 (fun p y => exists i, best p i /\ nth_error (gb_classes g) i = Some y) P out.
Proof.
  intros m L g X out. unfold gb_predict. split.
  - intro H. inv_bind H. apply (pick_ok _ (F64_ord m)) in H. eauto.
  - intros (P & -> & H). cbn [bind]. apply (pick_ok _ (F64_ord m)). auto.
Qed.
Print Assumptions C16_predict.

Theorem C16_log_proba : forall (m : libm) (L : Type) (g : gb (F64 m) L) X P,
  gb_predict_proba g X = Ok P ->
  exists Q, gb_predict_log_proba g X = Ok Q /\ Forall2 (Forall2 (fun p q => safe_log p = Ok q)) P Q.
Proof.
  intros m L g X P H. unfold gb_predict_log_proba. rewrite H. cbn [bind]. rewrite apply_2d_ll.
  destruct (mapM_rect_total (safe_log (A:=F64 m)) P) as [Q E].
  - intros x. destruct x as [[]|[]| |[] ? ? ?]; eexists; reflexivity.
  - exists Q. split; auto. apply mapM_Forall2 in E. eapply Forall2_imp; [|exact E].
    intros p q Hq. apply mapM_Forall2. exact Hq.
Qed.
Print Assumptions C16_log_proba.

(** Sparse input and input of the wrong width are rejected. *)
Theorem C16_rejected : forall (m : libm) (L : Type) (g : gb (F64 m) L),
  (forall rows sz dt, gb_predict g (Sp rows sz dt) = Err ValueError /\ gb_predict_proba g (Sp rows sz dt) = Err ValueError) /\
  (forall M r c, rect M r c -> 1 <= r -> Z.of_nat c <> gb_nfeat g ->
     gb_predict g (ll M) = Err ValueError /\ gb_predict_proba g (ll M) = Err ValueError).
Proof.
  intros m L g. split.
  - intros. split; reflexivity.
  - intros M r c RM H1 Hc. assert (E : gb_raw_predict g (ll M) = Err ValueError).
    { unfold gb_raw_predict, gb_raw_init. destruct M as [|m0 M]; [destruct RM as [RM _]; simpl in RM; lia|].
      cbn [ll map check_array bind]. change (Arr (Ls m0 :: map Ls M)) with (ll (m0 :: M)).
      unfold shape1. rewrite (shape_ll' _ r c RM H1). cbn [bind].
      replace (Z.of_nat c =? gb_nfeat g)%Z with false by (symmetry; apply Z.eqb_neq; auto). reflexivity. }
    unfold gb_predict, gb_predict_proba. rewrite E. auto.
Qed.
Print Assumptions C16_rejected.

(** "each row is a distribution" fails on doubles for the multinomial loss: the
    log-sum-exp is not shifted.  A score whose exponential overflows gives a row
    of zeros, scores whose exponentials all underflow give infinities. *)
Theorem C16_overflow_refuted : forall m, exp_overflows m f1000 ->
  raw_to_proba (LMulti 2) [[(f1000 : F64 m); f1000]] = Ok [[zero; zero]].
Proof.
  intros m H. unfold raw_to_proba. rewrite apply_2d_ll. cbn [mapM].
  rewrite safe_exp_fin by apply f1000_val. unfold exp_overflows in H. rewrite H. cbn [bind].
  cbn. destruct f1000_val as [F _]. destruct f1000; try discriminate; reflexivity.
Qed.
Print Assumptions C16_overflow_refuted.

Theorem C16_underflow_refuted : forall m, exp_underflows m fm1000 ->
  raw_to_proba (LMulti 2) [[(fm1000 : F64 m); fm1000]] = Ok [[pinf; pinf]].
Proof.
  intros m [s H]. unfold raw_to_proba. rewrite apply_2d_ll. cbn [mapM].
  rewrite safe_exp_fin by apply fm1000_val. rewrite H. cbn [bind].
  destruct fm1000_val as [F _]. destruct s; cbn; destruct fm1000; try discriminate; reflexivity.
Qed.
Print Assumptions C16_underflow_refuted.

(** A one-stage ensemble whose only tree is a leaf of value [v]; the init
    estimator returns probabilities 1/2, 1/2. *)
Definition leaf_tree (v : XR) : tree XR nat :=
  {| t_left := [(-1)%Z]; t_right := [(-1)%Z]; t_feature := [(-2)%Z]; t_thr := [zero]; t_value := [[v]]; t_classes := [] |}.
Definition one_stage (ls : loss) (vs : list R) : gb XR nat :=
  {| gb_estimators := [map (fun v => leaf_tree (XFin v)) vs]; gb_init := Some (fun _ => Ok (finss [[(1 / 2)%R; (1 / 2)%R]]));
     gb_lr := XFin 1; gb_nfeat := 1; gb_loss := ls; gb_classes := [0; 1] |}.
Lemma one_stage_exact : forall ls vs, vs <> [] ->
  gb_exact (one_stage ls vs) [[XFin 0]] [[(1 / 2)%R; (1 / 2)%R]] 1 1 (length vs) 2.
Proof.
  intros ls vs N. repeat split; simpl; try lia; try discriminate; auto.
  - destruct vs; [congruence|simpl; lia].
  - constructor; auto. apply map_length.
  - eexists. split; reflexivity.
  - intros row t [<-|[]] Ht. apply in_map_iff in Ht. destruct Ht as (v & <- & _). exists [v]. split; reflexivity.
Qed.
Example C16_case : gb_exact (one_stage (LMulti 2) [1%R; 2%R]) [[XFin 0]] [[(1 / 2)%R; (1 / 2)%R]] 1 1 2 2 /\
  gb_exact (one_stage LBinary [1%R]) [[XFin 0]] [[(1 / 2)%R; (1 / 2)%R]] 1 1 1 2 /\
  gb_fits (one_stage LBinary [1%R]) [[XFin 0]] 1 1 /\
  exp_nonneg crlibm /\ exp_overflows crlibm f1000 /\ exp_underflows crlibm fm1000.
Proof.
  split; [apply (one_stage_exact (LMulti 2) [1%R; 2%R]); discriminate|].
  split; [apply (one_stage_exact LBinary [1%R]); discriminate|].
  split; [|split; [apply cr_exp_nonneg|split; [apply cr_over|apply cr_under]]].
  repeat split; simpl; try lia; try discriminate; auto.
  intros row t [<-|[]] [<-|[]]. exists [XFin 1]. split; reflexivity.
Qed.

(** C17.  What the exponential loss computes, exactly: the raw score is half the
    initial log-odds plus lr * sum of the predictions, the two columns are
    1 - 2*logistic(s) and 2*logistic(s), and the second class is predicted exactly
    when s > -ln 3. *)
Theorem C17_value : forall (L : Type) (g : gb XR L) M P lr r c0 c1,
  gb_exact g M P lr r 1 2 -> gb_loss g = LExponential -> gb_classes g = [c0; c1] ->
  exists rs, gb_raw_predict g (ll M) = Ok (finss (map (fun s => [s]) rs)) /\ length rs = r /\
    (forall i p, cell P i 1 = Some p -> exists qs, stage_reals g M i 0 qs /\
       nth_error rs i = Some (1 / 2 * logit (clipR p) + lr * Rsum qs)%R) /\
    gb_predict_proba g (ll M) = Ok (finss (map (fun s => [(1 - 2 * logistic s)%R; (2 * logistic s)%R]) rs)) /\
    gb_predict g (ll M) = Ok (map (fun s => if Rlt_dec (- ln 3) s then c1 else c0) rs).
Proof.
  intros L g M P lr r c0 c1 (RM & Hn & H1 & HK & HL & NE & HE & (init & Hi & HI) & RP & HP) LS CL.
  destruct (gb_raw_exact L g M (map (fun row => [(1 / 2 * logit (clipR (nth 1 row 0%R)))%R]) P) r 1 lr) as (raw & E & RR & HC); auto.
  { exists init. split; auto. rewrite LS. unfold get_init_raw. rewrite HI. cbn [bind].
    apply (init_binary_XR (fun v => mul half v) (fun v => 1 / 2 * v)%R P r); auto.
    intro x. rewrite half_XR. reflexivity. }
  { destruct RP as [RP1 _]. split; [rewrite map_length; auto|]. apply Forall_map. apply Forall_forall. auto. }
  destruct (one_column raw r RR) as (rs & -> & Lr).
  assert (EP : gb_predict_proba g (ll M) = Ok (finss (map (fun s => [(1 - 2 * logistic s)%R; (2 * logistic s)%R]) rs))).
  { unfold gb_predict_proba. rewrite E. cbn [bind]. rewrite LS. apply raw_exponential_XR. destruct rs; [simpl in *; lia|discriminate]. }
  exists rs. split; auto. split; auto. split; [|split; auto].
  - intros i p Hp. destruct (HC i 0 (1 / 2 * logit (clipR p))%R) as (qs & HQ & Hq).
    + unfold cell in *. rewrite nth_error_map'. destruct (nth_error P i) as [row|]; [|discriminate]. simpl.
      destruct row as [|a [|b row]]; try discriminate. inversion Hp. auto.
    + exists qs. split; auto. unfold cell in Hq. rewrite nth_error_map' in Hq. destruct (nth_error rs i); simpl in Hq; [auto|discriminate].
  - unfold gb_predict. rewrite EP. cbn [bind]. apply (pick_ok (gb_classes g) XR_ord). unfold finss. rewrite map_map, CL.
    rewrite Forall2_map_l, Forall2_map_r. clear. induction rs as [|s rs IH]; constructor; auto.
    eexists. split; [apply best_fins, Rargmax_two; reflexivity|]. 
    assert (Q : (1 - 2 * logistic s < 2 * logistic s <-> - ln 3 < s)%R).
    { rewrite <- (logistic_lt (- ln 3) s), logistic_ln3. lra. }
    destruct (Rlt_dec (1 - 2 * logistic s) (2 * logistic s)), (Rlt_dec (- ln 3) s); try lra; auto; exfalso; tauto.
Qed.
Print Assumptions C17_value.

(** "probabilities in [0,1]" is false: with a positive raw score the second
    column exceeds 1 and the first is negative. *)
Theorem C17_refuted : forall s : R, (0 < s)%R ->
  exists p q, raw_to_proba (A:=XR) LExponential (finss [[s]]) = Ok (finss [[p; q]]) /\ (p < 0)%R /\ (1 < q)%R.
Proof.
  intros s H. exists (1 - 2 * logistic s)%R, (2 * logistic s)%R.
  split; [apply (raw_exponential_XR [s]); discriminate|].
  apply logistic_lt in H. rewrite logistic_0 in H. lra.
Qed.
Print Assumptions C17_refuted.

(** "predict agrees with the sign of the raw score" is false: a concrete
    ensemble whose raw score is -1/2 predicts the positive class. *)
Theorem C17_sign_refuted : exists (g : gb XR nat) M, gb_loss g = LExponential /\ gb_classes g = [0; 1] /\
  gb_raw_predict g (ll M) = Ok (finss [[(- (1 / 2))%R]]) /\ gb_predict g (ll M) = Ok [1].
Proof.
  exists (one_stage LExponential [(- (1 / 2))%R]), [[XFin 0]]. split; auto. split; auto.
  destruct (C17_value nat (one_stage LExponential [(- (1 / 2))%R]) [[XFin 0]] [[(1 / 2)%R; (1 / 2)%R]] 1 1 0 1)
    as (rs & E & Lr & HC & _ & EP); auto; [apply one_stage_exact; discriminate|].
  destruct rs as [|s [|]]; try discriminate. destruct (HC 0 (1 / 2)%R eq_refl) as (qs & HQ & Hq).
  assert (Q : qs = [(- (1 / 2))%R]).
  { unfold stage_reals in HQ. simpl in HQ. inversion HQ as [|? q ? ? (t & p & E1 & E2 & E3) HQ']; subst. inversion HQ'; subst.
    inversion E1; subst t. unfold reg_predict in E2. cbn in E2. inversion E2.
    destruct p as [|x [|]]; try discriminate. inversion H0; subst. inversion E3. auto. }
  subst qs. simpl in Hq. inversion Hq as [Hs]. 
  assert (L0 : logit (clipR (1 / 2)) = 0%R).
  { pose proof eps_pos. pose proof eps_small. unfold clipR. rewrite Rmin_left by lra. rewrite Rmax_right by lra.
    unfold logit. replace (1 / 2 / (1 - 1 / 2))%R with 1%R by field. apply ln_1. }
  rewrite L0 in Hs. assert (Hs' : s = (- (1 / 2))%R) by lra. clear Hs Hq. subst s. split; auto.
  rewrite EP. simpl. destruct (Rlt_dec (- ln 3) (- (1 / 2))) as [|C]; auto. exfalso. apply C.
  assert (X : (exp (1 / 2) < 3)%R).
  { pose proof exp_le_3. assert (exp (1 / 2) < exp 1)%R by (apply exp_increasing; lra). lra. }
  apply ln_increasing in X; [|apply exp_pos]. rewrite ln_exp in X. lra.
Qed.
Print Assumptions C17_sign_refuted.

(** What does hold: positive raw scores predict the positive class, scores below
    -ln 3 the negative one, and the columns sum to 1.  Missing: values in [0,1],
    the formula expit(2*raw) and scores in (-ln 3, 0], where the code is wrong. *)
Theorem C17_partial : forall (L : Type) (g : gb XR L) M P lr r c0 c1,
  gb_exact g M P lr r 1 2 -> gb_loss g = LExponential -> gb_classes g = [c0; c1] ->
  exists rs PP out, gb_raw_predict g (ll M) = Ok (finss (map (fun s => [s]) rs)) /\
    gb_predict_proba g (ll M) = Ok (finss PP) /\ gb_predict g (ll M) = Ok out /\
    Forall (fun p => length p = 2 /\ Rsum p = 1%R) PP /\
    Forall2 (fun s y => ((0 < s)%R -> y = c1) /\ ((s <= - ln 3)%R -> y = c0)) rs out.
Proof.
  intros L g M P lr r c0 c1 H1 H2 H3. destruct (C17_value L g M P lr r c0 c1 H1 H2 H3) as (rs & E & Lr & _ & EP & EO).
  eexists _, _, _. split; [exact E|]. split; [exact EP|]. split; [exact EO|]. split.
  - apply Forall_map, Forall_forall. intros s _. simpl. split; auto. ring.
  - apply Forall2_map_r. clear. assert (0 < ln 3)%R by (rewrite <- ln_1; apply ln_increasing; lra).
    induction rs as [|s rs IH]; constructor; auto. destruct (Rlt_dec (- ln 3) s); split; auto; lra.
Qed.
Print Assumptions C17_partial.

Example C17_case : gb_exact (one_stage LExponential [(- (1 / 2))%R]) [[XFin 0]] [[(1 / 2)%R; (1 / 2)%R]] 1 1 1 2 /\
  gb_loss (one_stage LExponential [(- (1 / 2))%R]) = LExponential.
Proof. split; auto. apply (one_stage_exact LExponential [(- (1 / 2))%R]). discriminate. Qed.
