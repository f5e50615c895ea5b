(** Proofs that well-formed inputs are accepted: classifiers and regressors. *)
From Coq Require Import String Lia.
From Verif Require Import Model.Py Model.Arith Model.Utils Model.Base Model.Hash Model.DictVec Model.Text Model.Tree
  Model.Ensemble Model.Xgb Model.Linear Model.NaiveBayes Model.Dummy Model.Preprocessing Model.Encoders
  Model.Impute Model.Pipeline Model.Est.
From Verif Require Import Spec.Matrix Spec.Trees Spec.Linear Spec.Ensembles Spec.Encode Spec.Impute Spec.Pipeline Spec.Accepts Proofs.Lib Proofs.Laws Proofs.Argmax Proofs.Arrays
  Proofs.Tree Proofs.Ensemble Proofs.Boosting Proofs.Linear Proofs.LinearProba Proofs.Xgb Proofs.Pipeline Proofs.Accepts Proofs.Accepts2 Proofs.Accepts3.
Local Open Scope nat_scope.

Section Classifiers.
  Context {A : arith} (TA : total_arith A) {L V : Type} (veq : V -> V -> bool) (vnum : A -> V) (U : textlib).
  Hypothesis veq_ok : forall a b, veq a b = true <-> a = b.
  Hypothesis GU : good_lib U.
  Notation ob := (obj_of (A:=A) (L:=L) veq vnum U).
  Notation form := (form V).

  (** A method there that succeeds with a result as [Q] says. *)
  Definition works {T} (mf : option (data A V -> res T * data A V)) (s : form) (Q : nat -> T -> Prop) : Prop :=
    exists f, mf = Some f /\ forall n X, 1 <= n -> of_form s n X -> exists r, fst (f X) = Ok r /\ Q n r.

  Lemma works_last : forall {T} (get : obj A L V -> option (data A V -> res T * data A V)) nm o s Q, works (get o) s Q -> works (pipe_method get [(nm, o)]) s Q.
  Proof.
    intros T get nm o s Q (f & E & H). destruct (pipe_method_some get [] nm o f E) as (g & EG & HG). exists g. split; [exact EG|]. intros n X Hn HX.
    destruct (H n X Hn HX) as (r & ER & QR). exists r. split; auto. apply (proj1 (HG X)). exists X. split; [constructor|auto].
  Qed.
  Lemma works_step : forall {T} (get : obj A L V -> option (data A V -> res T * data A V)) nm o rest s s1 Q, handles o s s1 ->
    works (pipe_method get rest) s1 Q -> works (pipe_method get ((nm, o) :: rest)) s Q.
  Proof.
    intros T get nm o rest s s1 Q (_ & t & ET & HT) (f & E & H).
    destruct (exists_last (l := rest)) as (l & [nf final] & ->); [intros ->; discriminate|].
    destruct (get final) as [ff|] eqn:EF; [|rewrite (proj2 (pipe_method_none get l nf final) EF) in E; discriminate].
    destruct (pipe_method_some get l nf final ff EF) as (g & EG & HG). rewrite EG in E. injection E as ->.
    destruct (pipe_method_some get ((nm, o) :: l) nf final ff EF) as (g' & EG' & HG'). exists g'. split; [exact EG'|]. intros n X Hn HX.
    destruct (HT n X Hn HX) as [(Y & EY & FY) _]. destruct (H n Y Hn FY) as (r & ER & QR). exists r. split; auto. apply (proj1 (HG' X)).
    apply (proj1 (HG Y)) in ER. destruct ER as (Z & AZ & EZ). exists Z. split; auto. cbn [map snd]. econstructor; eauto.
  Qed.
  Lemma step_method : forall {T} (get : obj A L V -> option (data A V -> res T * data A V)) x y rest g, pipe_method get (x :: y :: rest) = Some g -> exists f, pipe_method get (y :: rest) = Some f.
  Proof.
    intros T get [nm o] y rest g E. unfold pipe_method in *. rewrite last_step_cons in E. destruct (last_step (y :: rest)); [|discriminate]. destruct (get o0); [eauto|discriminate].
  Qed.

  (** The rows of a numeric input. *)
  Definition item_ok (w : nat) (x : item A) : Prop := match x with Ls r => length r = w | Di d => row_of w d | Sc _ => False end.
  Definition numeric_rows (s : form) (w n : nat) (X : arr A) : Prop :=
    exists l, items X = Ok l /\ check_array X HAllow = Ok X /\ inputs X l /\ length l = n /\ Forall (item_ok w) l /\ shape X = Ok (S2 (Z.of_nat n) (Some (Z.of_nat w))).
  Lemma numeric_items : forall s w n (X : data A V), numeric s w -> 1 <= n -> of_form s n X -> exists Y, X = DNum Y /\ numeric_rows s w n Y.
  Proof.
    intros s w n X [->| ->] Hn H; cbn [of_form] in H.
    - destruct H as (M & -> & R). assert (NE : M <> []) by (apply (rows_ne M n w); auto). exists (ll M). split; auto. exists (map Ls M). split; [reflexivity|].
      split; [destruct M; [congruence|reflexivity]|]. split; [apply inputs_ll; auto|]. split; [rewrite map_length; apply R|]. split; [|apply shape_ll'; auto].
      destruct R as [_ F]. rewrite Forall_map. exact F.
    - destruct H as (rows & dt & -> & LR & F). eexists. split; [reflexivity|]. exists (map Di rows). split; [reflexivity|]. split; [reflexivity|]. split; [apply inputs_sp|]. split; [rewrite map_length; auto|].
      split; [rewrite Forall_map; exact F|]. unfold shape. cbn [items bind]. destruct rows as [|d rows]; [cbn in LR; lia|]. cbn [map]. cbn [length]. rewrite map_length. cbn [length] in LR. rewrite LR. reflexivity.
  Qed.

  Lemma tree_falls : forall P w (t : tree A L) sh x, encodes t 0 sh -> features_below w sh -> all_leaves P sh -> item_ok w x -> exists v, fallx x sh = Some v /\ P v.
  Proof.
    intros P w t sh x E FB AL HX. destruct x as [a|r|d]; [destruct HX| |].
    - cbn [item_ok] in HX. subst w. rewrite fallx_dense. destruct (fall_below r sh FB) as [v Ev]. exists v. split; auto. eapply fall_leaf; eauto.
    - cbn [item_ok] in HX. pose proof (stores_get TA w d HX) as ST. set (r := map _ (zrange 0 (Z.of_nat w))) in ST.
      assert (LR : length r = w) by (unfold r; rewrite map_length, zrange_length; lia). rewrite (fallx_sparse (ta_ord _ TA) d r sh ST) by (rewrite LR; auto).
      rewrite <- LR in FB. destruct (fall_below r sh FB) as [v Ev]. exists v. split; auto. eapply fall_leaf; eauto.
  Qed.
  Lemma tree_works : forall (t : tree A L) s w n k X, tree_for (fun v => length v = k /\ eqb (psum v) zero = false) w t -> numeric_rows s w n X ->
    exists P, tree_predict_proba t X = Ok P /\ rect P n k.
  Proof.
    intros t s w n k X (sh & E & FB & AL) (l & _ & _ & IN & LN & F & _).
    destruct (Forall2_build (fun x p => exists v, fallx x sh = Some v /\ mapM (fun a : A => div a (psum v)) v = Ok p /\ length p = k) l) as [P HP].
    - intros x Hx. rewrite Forall_forall in F. destruct (tree_falls _ w t sh x E FB AL (F x Hx)) as (v & Ev & Lv & Sv).
      destruct (mapM_all (fun a : A => div a (psum v)) (fun _ => True) v) as (p & Ep & Lp & _); [intros a _; destruct (ta_div _ TA a _ Sv) as [q ->]; eauto|].
      exists p, v. repeat split; auto. lia.
    - exists P. split.
      + apply (proj2 (tree_proba_ok t X l sh IN E P)). eapply Forall2_imp; [|exact HP]. intros x p (v & H1 & H2 & _). eauto.
      + split; [rewrite <- (Forall2_len _ _ _ HP); auto|]. clear -HP. induction HP as [|x p l P (v & _ & _ & H) HP IH]; constructor; auto.
  Qed.
  Lemma reg_works : forall (t : tree A L) s w n X, regression_tree w t -> numeric_rows s w n X -> exists p, reg_predict t X = Ok p /\ length p = n.
  Proof.
    intros t s w n X (sh & E & FB & AL) (l & _ & _ & IN & LN & F & _).
    destruct (Forall2_build (fun x y => exists v, fallx x sh = Some v /\ lnth v 0 = Ok (y : A)) l) as [p HP].
    - intros x Hx. rewrite Forall_forall in F. destruct (tree_falls _ w t sh x E FB AL (F x Hx)) as (v & Ev & Lv). destruct (nth_in_range v 0) as (y & Ey & _); [lia|]. exists y, v. auto.
    - exists p. split; [apply (proj2 (reg_predict_ok t X l sh IN E p)); auto|]. rewrite <- (Forall2_len _ _ _ HP); auto.
  Qed.

  Lemma map_rect : forall (f : A -> res A) (P : list (list A)) n k, (forall x, exists y, f x = Ok y) -> rect P n k -> exists Q, mapM (mapM f) P = Ok Q /\ rect Q n k.
  Proof.
    intros f P n k H R. destruct (mapM_rect_total f P H) as [Q E]. exists Q. split; auto. apply (mapM_rect f P Q n k R E).
  Qed.

  (** Ensembles. *)
  Lemma bag_works : forall (b : bagging A L) X n k, 1 <= n -> b_members b <> [] -> (forall i, i < length (b_members b) -> exists P, member_proba b X i = Ok P /\ rect P n k) ->
    exists P, bagging_predict_proba b X = Ok P /\ rect P n k.
  Proof.
    intros b X n k Hn NE H.
    destruct (Forall2_build (fun i P => member_proba b X i = Ok P /\ rect P n k) (seq 0 (length (b_members b)))) as [Ps HP]; [intros i Hi; apply in_seq in Hi; apply H; lia|].
    pose proof (Forall2_len _ _ _ HP) as LP. rewrite seq_length in LP.
    destruct (bagging_mean b X Ps n k) as (P & EP & RP & _); auto.
    - intros ->. destruct (b_members b); [congruence|discriminate].
    - intro x. apply (ta_div _ TA). apply (ta_count _ TA). rewrite <- LP. destruct (b_members b); [congruence|cbn; lia].
    - clear -HP. induction HP as [|i P l Ps [_ R] HP IH]; constructor; auto.
    - intros i P HI. assert (Hi : i < length (b_members b)) by (rewrite LP; apply nth_error_Some; congruence).
      pose proof (proj2 (proj1 (Forall2_nth_error _ _ _) HP) i i P) as Q. apply Q; auto. rewrite nth_error_seq. destruct (Nat.ltb_spec i (length (b_members b))); [auto|lia].
    - exists P. auto.
  Qed.
  Definition rows_of (n k : nat) (P : list (list A)) : Prop := rect P n k.
  Lemma member_works : forall (m : est A L V) s n k X, works (o_proba (ob m)) s (fun n P => rect P n k) -> 1 <= n -> of_form s n (DNum X) -> exists P, proba_of (ob m) X = Ok P /\ rect P n k.
  Proof. intros m s n k X (f & E & H) Hn HX. unfold proba_of. rewrite E. apply (H n (DNum X) Hn HX). Qed.

  (** Gradient boosting. *)
  Lemma softmax_works : forall k (raw : list (list A)) n, rect raw n k -> exists P, raw_to_proba (LMulti k) raw = Ok P /\ rect P n k.
  Proof.
    intros k raw n R. cbn [raw_to_proba]. rewrite apply_2d_ll. destruct (map_rect safe_exp raw n k (ta_exp _ TA) R) as (E & -> & RE). cbn [bind].
    unfold apply_axis_2d. cbn [issparse ll andb Z.eqb Pos.eqb items bind]. rewrite mapM_map. cbn [iter_item bind]. rewrite mapM_Ok. cbn [bind].
    destruct (mapM_all safe_log (fun _ => True) (map psum E)) as (lse & -> & LL & _); [intros x _; destruct (ta_log _ TA x) as [y ->]; eauto|]. cbn [bind].
    rewrite map_length in LL. destruct RE as [LE _]. destruct R as [LR FR].
    destruct (mapM_all (fun index => mapM (fun i => r <- lnth raw index ;; v <- lnth r i ;; s <- lnth lse index ;; safe_exp (sub v s)) (range k)) (fun r => length r = k) (range (length raw))) as (P & -> & LP & FP).
    - intros i Hi. apply in_seq in Hi. destruct (nth_in_range raw i) as (r & -> & Ir); [lia|]. destruct (nth_in_range lse i) as (s & -> & _); [lia|]. cbn [bind].
      rewrite Forall_forall in FR. specialize (FR r Ir). destruct (mapM_all (fun j => v <- lnth r j ;; safe_exp (sub v s)) (fun _ => True) (range k)) as (p & Ep & Lp & _).
      + intros j Hj. apply in_seq in Hj. destruct (nth_in_range r j) as (v & -> & _); [lia|]. cbn [bind]. destruct (ta_exp _ TA (sub v s)) as [y ->]. eauto.
      + exists p. split; auto. unfold range in Lp. rewrite seq_length in Lp. auto.
    - exists P. split; auto. split; auto. unfold range in LP. rewrite seq_length in LP. lia.
  Qed.
  Lemma two_works : forall (f : A -> res A) (raw : list (list A)) n, (forall x, exists y, f x = Ok y) -> 1 <= n -> rect raw n 1 -> exists P, binary_proba f raw = Ok P /\ rect P n 2.
  Proof.
    intros f raw n Hf Hn R. destruct (one_column raw n R) as (vs & -> & LV). destruct (mapM_all f (fun _ => True) vs) as (p & Ep & Lp & _); [intros x _; destruct (Hf x) as [y ->]; eauto|].
    rewrite (binary_proba_ok f vs p); auto; [|intros ->; cbn in LV; lia]. eexists. split; [reflexivity|]. split; [rewrite map_length; lia|]. rewrite Forall_map. apply Forall_forall. auto.
  Qed.
  Lemma raw_works : forall (g : gb A L) (M I : list (list A)) n w K, 1 <= n -> rect M n w -> gb_nfeat g = Z.of_nat w -> gb_estimators g <> [] -> 1 <= K ->
    Forall (fun row => length row = K) (gb_estimators g) -> Forall (Forall (regression_tree w)) (gb_estimators g) ->
    (exists init, gb_init g = Some init /\ get_init_raw (gb_loss g) (ll M) init = Ok I) -> rect I n K -> exists raw, gb_raw_predict g (ll M) = Ok raw /\ rect raw n K.
  Proof.
    intros g M I n w K Hn R HF NE HK HL HT HI RI. destruct (gb_raw_ok g M I n K) as (raw & E & RR & _); auto.
    - rewrite HF, Nat2Z.id. auto.
    - lia.
    - intros row t Hr Ht. rewrite Forall_forall in HT. specialize (HT row Hr). rewrite Forall_forall in HT.
      destruct (numeric_items (FRows w) w n (DNum (ll M))) as (Y & EY & NR); [left; auto|auto|exists M; auto|]. injection EY as <-. eapply reg_works; eauto.
    - eauto.
  Qed.
  Lemma init_two_works : forall (f : A -> A) (P : list (list A)) n, rect P n 2 -> exists I, init_binary f P = Ok I /\ rect I n 1.
  Proof.
    intros f P n [LP FP]. unfold init_binary.
    destruct (mapM_all (fun a : list A => v <- lnth a 1 ;; Ok (clip v EPS (sub one EPS))) (fun v => eqb (sub one v) zero = false) P) as (pos & -> & LPos & FPos).
    - intros a Ha. rewrite Forall_forall in FP. destruct (nth_in_range a 1) as (v & -> & _); [rewrite FP by auto; lia|]. cbn [bind]. eexists. split; [reflexivity|]. apply (ta_odds _ TA).
    - cbn [bind]. destruct (mapM_all (fun a => q <- div a (sub one a) ;; v <- safe_log q ;; Ok [f v]) (fun r => length r = 1) pos) as (I & -> & LI & FI).
      + intros a Ha. rewrite Forall_forall in FPos. destruct (ta_div _ TA a _ (FPos a Ha)) as [q ->]. cbn [bind]. destruct (ta_log _ TA q) as [v ->]. cbn [bind]. eauto.
      + exists I. split; auto. split; auto. lia.
  Qed.

  (** XGBoost. *)
  Lemma xgb_works : forall (g : xgb A L) (M : list (list A)) n w, 1 <= n -> rect M n w -> xg_objective g = lit "binary:logistic" ->
    Forall (fun r => match r with One t => regression_tree w t | Many _ => False end) (xg_estimators g) -> exists P, xgb_predict_proba g (ll M) = Ok P /\ rect P n 2.
  Proof.
    intros g M n w Hn R HO HT. assert (NE : M <> []) by (apply (rows_ne M n w); auto). unfold xgb_predict_proba.
    replace (check_array (ll M) HError) with (@Ok (arr A) (ll M)) by (destruct M; [congruence|reflexivity]). cbn [bind]. rewrite HO.
    replace (str_eqb (lit "binary:logistic") (lit "multi:softprob")) with false by reflexivity. rewrite str_eqb_refl. unfold xgb_binary_scores. rewrite len_ll. cbn [bind].
    destruct R as [LM FM]. rewrite LM.
    assert (G : forall es acc, Forall (fun r => match r with One t => regression_tree w t | Many _ => False end) es -> length acc = n ->
              exists out, foldM (fun acc row => p <- (match (row : est_row A L) with One t => reg_predict t (ll M) | Many _ => Err AttributeError end) ;; Ok (zip_with add acc p)) es acc = Ok (out : list A) /\ length out = n).
    { induction es as [|e es IH]; intros acc F LA; cbn [foldM]; [eauto|]. inversion F as [|? ? H1 H2]; subst e es. destruct x as [t|]; [|contradiction].
      destruct (numeric_items (FRows w) w n (DNum (ll M))) as (Y & EY & NR); [left; auto|auto|exists M; split; auto; split; auto|]. injection EY as <-.
      destruct (reg_works t _ w n (ll M) H1 NR) as (p & -> & Lp). cbn [bind]. apply IH; auto. rewrite zip_with_length. lia. }
    destruct (G (xg_estimators g) (rep zero n) HT) as (out & -> & LO); [unfold rep; apply repeat_length|]. cbn [bind].
    destruct (mapM_all expit (fun _ => True) out) as (p & -> & Lp & _); [intros x _; destruct (ta_expit _ TA x) as [y ->]; eauto|]. cbn [bind]. eexists. split; [reflexivity|].
    split; [rewrite map_length; lia|]. rewrite Forall_map. apply Forall_forall. auto.
  Qed.

  (** Linear classifiers. *)
  Lemma dot_works : forall w x (B : list (list A)), item_ok w x -> Forall (fun r => length r = w) B -> exists p, dot x B = Ok p /\ length p = length B.
  Proof.
    intros w x B HX FB. destruct x as [a|r|d]; [destruct HX| |].
    - rewrite dot_dense. eexists. split; [reflexivity|]. apply map_length.
    - unfold dot. destruct (mapM_all (fun Bi : list A => ts <- mapM (fun kv => b <- lget Bi (fst kv) ;; Ok (mul (snd kv) b)) d ;; Ok (psum ts)) (fun _ => True) B) as (p & E & LP & _); [|exists p; auto].
      intros Bi HB. rewrite Forall_forall in FB. specialize (FB Bi HB).
      destruct (mapM_all (fun kv => b <- lget Bi (fst kv) ;; Ok (mul (snd kv) b)) (fun _ => True) d) as (ts & -> & _); [|cbn [bind]; eauto].
      intros kv Hkv. destruct HX as [_ K]. destruct (lget_in_range Bi (fst kv)) as (b & -> & _); [rewrite FB; apply K, in_map; auto|]. cbn [bind]. eauto.
  Qed.
  Lemma dec_works : forall (c : linear A L) s w K b n X, 1 <= n -> fitted_linear c w K b -> numeric_rows s w n X ->
    exists S d, decision_function c X = Ok d /\ rect S n K /\ scores_are K S d.
  Proof.
    intros c s w K b n X Hn (RC & HK & HI & LB) (l & EI & EC & _ & LN & F & SH). unfold decision_function. rewrite EC. cbn [bind]. unfold shape1 at 1 2. rewrite (shape_ll' _ _ _ RC HK), SH. cbn [bind].
    rewrite Z.eqb_refl. cbn [guard bind]. rewrite EI. cbn [bind].
    destruct (mapM_all (row_scores c) (fun r : list A => length r = K) l) as (S & ES & LS & FS).
    - intros x Hx. unfold row_scores. rewrite Forall_forall in F. destruct RC as [RC1 RC2]. destruct (dot_works w x (l_coef c) (F x Hx) RC2) as (p & -> & Lp). cbn [bind]. rewrite HI. cbn [getattr bind].
      eexists. split; [reflexivity|]. rewrite zip_with_length. lia.
    - destruct (scores_flat l S c K HK) as (d & Ed & Hd); auto; [intros ->; cbn in LN; lia|]. exists S, d. split; [exact Ed|]. split; [split; auto; lia|auto].
  Qed.
  Lemma lr_works : forall (c : linear A L) s w K b n X, 1 <= n -> fitted_linear c w K b -> numeric_rows s w n X ->
    exists P, predict_proba_lr c X = Ok P /\ rect P n (if K =? 1 then 2 else K).
  Proof.
    intros c s w K b n X Hn FL NR. destruct (dec_works c s w K b n X Hn FL NR) as (S & d & E & RS & HS). unfold predict_proba_lr. rewrite E. cbn [bind].
    destruct HS as [[NK ->]|[-> (l & ES & ->)]].
    - destruct (Nat.eqb_spec K 1); [congruence|]. destruct (map_rect expit S n K (ta_expit _ TA) RS) as (P & -> & RP). cbn [bind]. destruct RP as [LP FP].
      destruct (mapM_all normalise (fun r : list A => length r = K) P) as (Q & -> & LQ & FQ).
      + intros r Hr. rewrite Forall_forall in FP. specialize (FP r Hr). unfold normalise.
        destruct (mapM_all (fun b : A => if negb (eqb (psum r) zero) then div b (psum r) else Ok nanv) (fun _ => True) r) as (q & -> & Lq & _); [|exists q; split; auto; lia].
        intros a _. destruct (eqb (psum r) zero) eqn:EZ; cbn [negb]; [eauto|]. destruct (ta_div _ TA a _ EZ) as [y ->]. eauto.
      + exists Q. split; auto. split; auto. lia.
    - rewrite Nat.eqb_refl. destruct (mapM_all (fun x : A => a <- expit x ;; Ok [sub one a; a]) (fun r : list A => length r = 2) l) as (P & -> & LP & FP).
      + intros x _. destruct (ta_expit _ TA x) as [y ->]. cbn [bind]. eauto.
      + exists P. split; auto. split; auto. destruct RS as [LS _]. rewrite ES, map_length in LS. lia.
  Qed.
  Lemma linear_label : forall (c : linear A L) s w K b n X, 1 <= n -> fitted_linear c w K b -> numeric_rows s w n X -> length (l_classes c) = (if K =? 1 then 2 else K) ->
    exists p, linear_predict c X = Ok p /\ length p = n.
  Proof.
    intros c s w K b n X Hn FL NR HC. destruct (dec_works c s w K b n X Hn FL NR) as (S & d & E & RS & HS). unfold linear_predict. rewrite E. cbn [bind].
    destruct HS as [[NK ->]|[-> (l & ES & ->)]].
    - destruct (Nat.eqb_spec K 1); [congruence|]. destruct FL as (_ & HK & _). destruct RS as [LS FS].
      destruct (mapM_all (fun a : list A => i <- argmax a ;; lnth (l_classes c) i) (fun _ => True) S) as (p & -> & Lp & _); [|exists p; split; auto; lia].
      intros a Ha. rewrite Forall_forall in FS. specialize (FS a Ha). destruct (argmax_total (ta_ord _ TA) a) as [i Ei]; [destruct a; [cbn in FS; lia|discriminate]|].
      rewrite Ei. cbn [bind]. apply (argmax_iff (ta_ord _ TA)) in Ei. destruct (nth_in_range (l_classes c) i) as (y & -> & _); [rewrite HC, <- FS; apply (best_lt _ _ Ei)|]. eauto.
    - rewrite Nat.eqb_refl in HC. destruct (mapM_all (fun x : A => lnth (l_classes c) (if gtb x zero then 1 else 0)) (fun _ => True) l) as (p & -> & Lp & _).
      + intros x _. destruct (nth_in_range (l_classes c) (if gtb x zero then 1 else 0)) as (y & -> & _); [destruct (gtb x zero); lia|]. eauto.
      + exists p. split; auto. destruct RS as [LS _]. rewrite ES, map_length in LS. lia.
  Qed.

  (** Naive Bayes. *)
  Lemma multi_row_works : forall d k w (row : list A), rect (d_log_prob d) k w -> length (d_log_prior d) = k -> length (d_classes (A:=A) (L:=L) d) = k ->
    exists r, multinomial_row d (Ls row) = Ok r /\ length r = k.
  Proof.
    intros d k w row [L1 _] L2 L3. unfold multinomial_row. rewrite dot_dense. cbn [bind]. rewrite L3.
    destruct (mapM_all (fun i => a <- lnth (map (dotp row) (d_log_prob d)) i ;; b <- lnth (d_log_prior d) i ;; Ok (add a b)) (fun _ => True) (range k)) as (r & -> & LR & _).
    - intros i Hi. apply in_seq in Hi. destruct (nth_in_range (map (dotp row) (d_log_prob d)) i) as (a & -> & _); [rewrite map_length; lia|]. cbn [bind].
      destruct (nth_in_range (d_log_prior d) i) as (b & -> & _); [lia|]. cbn [bind]. eauto.
    - exists r. split; auto. unfold range in LR. rewrite seq_length in LR. auto.
  Qed.
  Lemma jll_works : forall (m : nb A L) d (M : list (list A)) n w k, m = Multinomial d \/ m = Complement d -> rect M n w -> rect (d_log_prob d) k w -> length (d_log_prior d) = k -> length (d_classes d) = k ->
    exists J, jll m (ll M) = Ok J /\ rect J n k.
  Proof.
    intros m d M n w k Hm RM RP L2 L3. destruct Hm as [->| ->]; cbn [jll items ll bind].
    - rewrite mapM_map. destruct (mapM_all (fun row => multinomial_row d (Ls row)) (fun r : list A => length r = k) M) as (J & -> & LJ & FJ); [intros row _; eapply multi_row_works; eauto|].
      exists J. split; auto. split; auto. rewrite LJ. apply RM.
    - unfold complement_jll. rewrite mapM_map. destruct (mapM_all (fun row => dot (Ls row) (d_log_prob d)) (fun r : list A => length r = k) M) as (J & -> & LJ & FJ).
      + intros row _. rewrite dot_dense. eexists. split; [reflexivity|]. rewrite map_length. apply RP.
      + cbn [bind]. destruct (Nat.eqb_spec (length (d_classes d)) 1) as [E1|]; [|exists J; split; auto; split; auto; rewrite LJ; apply RM].
        destruct (mapM_all (fun x : list A => a <- lnth x 0 ;; b <- lnth (d_log_prior d) 0 ;; Ok [add a b]) (fun r : list A => length r = k) J) as (J' & -> & LJ' & FJ').
        * intros r Hr. rewrite Forall_forall in FJ. specialize (FJ r Hr). destruct (nth_in_range r 0) as (a & -> & _); [lia|]. cbn [bind]. destruct (nth_in_range (d_log_prior d) 0) as (b & -> & _); [lia|]. cbn [bind].
          eexists. split; [reflexivity|]. cbn; lia.
        * exists J'. split; auto. split; auto. rewrite LJ', LJ. apply RM.
  Qed.
  Lemma zip_sub_rect : forall (J : list (list A)) (l : list A) n k, rect J n k -> length l = n -> rect (zip_with (fun a s => map (fun v => sub v s) a) J l) n k.
  Proof.
    intros J l n k [LJ FJ] LL. split; [rewrite zip_with_length; lia|]. clear LJ LL n. revert l. induction FJ as [|r J Hr FJ IH]; intros [|x l]; cbn [zip_with]; constructor; auto. rewrite map_length. auto.
  Qed.
  Lemma nb_log_works : forall (m : nb A L) d (M : list (list A)) n w k, 1 <= n -> m = Multinomial d \/ m = Complement d -> rect M n w -> rect (d_log_prob d) k w -> length (d_log_prior d) = k -> length (d_classes d) = k ->
    exists P, nb_predict_log_proba m (ll M) = Ok P /\ rect P n k.
  Proof.
    intros m d M n w k Hn Hm RM RP L2 L3. assert (NE : M <> []) by (apply (rows_ne M n w); auto). unfold nb_predict_log_proba.
    replace (check_array (ll M) HError) with (@Ok (arr A) (ll M)) by (destruct M; [congruence|reflexivity]). cbn [bind].
    destruct (jll_works m d M n w k Hm RM RP L2 L3) as (J & -> & RJ). cbn [bind].
    destruct (mapM_all logsumexp (fun _ => True) J) as (lp & -> & LL & _).
    - intros r _. unfold logsumexp. destruct (mapM_all safe_exp (fun _ => True) r) as (es & -> & _); [intros x _; destruct (ta_exp _ TA x) as [y ->]; eauto|]. cbn [bind]. destruct (ta_log _ TA (psum es)) as [y ->]. eauto.
    - cbn [bind]. eexists. split; [reflexivity|]. apply zip_sub_rect; auto. rewrite LL. apply RJ.
  Qed.

  Lemma sized_len : forall s n (X : data A V), 1 <= n -> of_form s n X -> len (as_sized X) = Ok n.
  Proof.
    intros s n X Hn H. destruct (form_check s n X Hn H) as [_ E]. unfold as_sized. destruct X; auto; rewrite E; unfold len; cbn [items bind]; unfold rep; rewrite repeat_length; reflexivity.
  Qed.

  Definition proba_ok (e : est A L V) (s : form) (k : nat) : Prop :=
    works (o_proba (ob e)) s (fun n P => rect P n k) /\ (forall g, o_log_proba (ob e) = Some g -> works (o_log_proba (ob e)) s (fun n P => rect P n k)).

  Lemma leaf_works : forall (f : arr A -> res (list (list A))) s k, (forall n X, 1 <= n -> of_form s n X -> exists P, f (as_num X) = Ok P /\ rect P n k) -> works (Est.reads f) s (fun n P => rect P n k).
  Proof. intros f s k H. eexists. split; [reflexivity|]. intros n X Hn HX. cbn [fst]. apply H; auto. Qed.
  Lemma leaf_log : forall (f g : arr A -> res (list (list A))) s k, (forall n X, 1 <= n -> of_form s n X -> exists P, f (as_num X) = Ok P /\ rect P n k) ->
    (forall X, g X = P <- f X ;; mapM (mapM safe_log) P) -> works (Est.reads g) s (fun n P => rect P n k).
  Proof.
    intros f g s k H E. apply leaf_works. intros n X Hn HX. rewrite E. destruct (H n X Hn HX) as (P & -> & RP). cbn [bind]. apply map_rect; auto. apply (ta_log _ TA).
  Qed.
  Ltac log_by H := intros g0 _; eapply leaf_log; [exact H|].

  Theorem rates_works : forall e s k, rates U e s k -> proba_ok e s k.
  Proof.
    intros e s k H. induction H as [t s w k HN HT|ms cl s w k HN NE HM IH|ms fss cl w k NE LF FB HM IH|ts i lr cl w k NE HK HL HT HI IH|ts i lr ls cl w HLS NE HL HT HI IH
      |g w HO HT|c s w K b HN HF HO|c s w K b HN HF HO|d w k R L1 L2|d w k R L1 L2|d s k HD|nm e s k H IH|nm e rest s s1 k HM H IH].
    - assert (W : forall n X, 1 <= n -> of_form s n X -> exists P, tree_predict_proba t (as_num X) = Ok P /\ rect P n k).
      { intros n X Hn HX. destruct (numeric_items s w n X HN Hn HX) as (Y & -> & NR). cbn [as_num]. eapply tree_works; eauto. }
      split; [apply leaf_works; exact W|]. log_by W. reflexivity.
    - set (b := {| b_members := map (fun m => proba_of (ob m)) ms; b_feats := None; b_classes := cl |}).
      assert (W : forall n X, 1 <= n -> of_form s n X -> exists P, bagging_predict_proba b (as_num X) = Ok P /\ rect P n k).
      { intros n X Hn HX. destruct (numeric_items s w n X HN Hn HX) as (Y & -> & NR). cbn [as_num]. apply bag_works; auto; [cbn; destruct ms; [congruence|discriminate]|].
        intros j Hj. cbn [b b_members] in Hj. rewrite map_length in Hj. destruct (nth_error ms j) as [m|] eqn:Em; [|apply nth_error_None in Em; lia].
        rewrite (member_forest b Y j (proba_of (ob m))) by (auto; cbn [b b_members]; rewrite nth_error_map, Em; reflexivity).
        eapply member_works; eauto. apply IH. eapply nth_error_In; eauto. }
      split; [apply leaf_works; exact W|]. log_by W. intro X. unfold bagging_predict_log_proba. apply bind_ext. intros P _. apply apply_2d_ll.
    - set (b := {| b_members := map (fun m => proba_of (ob m)) ms; b_feats := Some fss; b_classes := cl |}).
      assert (W : forall n (X : data A V), 1 <= n -> of_form (FRows w) n X -> exists P, bagging_predict_proba b (as_num X) = Ok P /\ rect P n k).
      { intros n X Hn (M & -> & R). cbn [as_num]. apply bag_works; auto; [cbn; destruct ms; [congruence|discriminate]|].
        intros j Hj. cbn [b b_members] in Hj. rewrite map_length in Hj. destruct (nth_error ms j) as [m|] eqn:Em; [|apply nth_error_None in Em; lia].
        destruct (nth_error fss j) as [fs|] eqn:Ef; [|apply nth_error_None in Ef; lia].
        assert (SL : exists M', feat_slice (ll M) (Some fs) = Ok (ll M') /\ rect M' n (length fs)).
        { unfold feat_slice. cbn [items ll bind]. rewrite mapM_map. destruct (mapM_all (fun row : list A => mapM (item_get (Ls row)) fs) (fun r : list A => length r = length fs) M) as (M' & -> & LM & FM).
          - intros row Hr. destruct (mapM_all (item_get (Ls row)) (fun _ => True) fs) as (r & -> & LR & _); [|exists r; auto]. intros j0 Hj0. cbn [item_get].
            destruct R as [_ R]. rewrite Forall_forall in R. rewrite Forall_forall in FB. pose proof (FB fs (nth_error_In _ _ Ef)) as FF. rewrite Forall_forall in FF.
            destruct (lget_in_range row j0) as (v & -> & _); [rewrite (R row Hr); auto|]. eauto.
          - cbn [bind]. exists M'. split; auto. split; auto. rewrite LM. apply R. }
        destruct SL as (M' & ESL & RM'). unfold member_proba, get_feats. cbn [b b_members b_feats]. unfold lnth. rewrite nth_error_map, Em, Ef. cbn [option_map bind]. rewrite ESL. cbn [bind].
        apply (member_works m (FRows (length fs))); [eapply IH; eauto|auto|exists M'; auto]. }
      split; [apply leaf_works; exact W|]. log_by W. intro X. unfold bagging_predict_log_proba. apply bind_ext. intros P _. apply apply_2d_ll.
    - set (g := {| gb_estimators := ts; gb_init := Some (proba_of (ob i)); gb_lr := lr; gb_nfeat := Z.of_nat w; gb_loss := LMulti k; gb_classes := cl |}).
      assert (W : forall n (X : data A V), 1 <= n -> of_form (FRows w) n X -> exists P, gb_predict_proba g (as_num X) = Ok P /\ rect P n k).
      { intros n X Hn (M & -> & R). cbn [as_num]. unfold gb_predict_proba. destruct (member_works i (FRows w) n k (ll M) (proj1 IH) Hn) as (P & EP & RP); [exists M; auto|].
        destruct (map_rect (fun x => safe_log (clip x EPS (sub one EPS))) P n k (fun x => ta_log _ TA _) RP) as (I & EI & RI).
        destruct (raw_works g M I n w k) as (raw & -> & RR); auto; [exists (proba_of (ob i)); split; auto; unfold get_init_raw; rewrite EP; cbn [bind g gb_loss]; rewrite apply_2d_ll; exact EI|].
        cbn [bind g gb_loss]. apply softmax_works; auto. }
      split; [apply leaf_works; exact W|]. log_by W. intro X. unfold gb_predict_log_proba. apply bind_ext. intros P _. apply apply_2d_ll.
    - set (g := {| gb_estimators := ts; gb_init := Some (proba_of (ob i)); gb_lr := lr; gb_nfeat := Z.of_nat w; gb_loss := ls; gb_classes := cl |}).
      assert (W : forall n (X : data A V), 1 <= n -> of_form (FRows w) n X -> exists P, gb_predict_proba g (as_num X) = Ok P /\ rect P n 2).
      { intros n X Hn (M & -> & R). cbn [as_num]. unfold gb_predict_proba. destruct (member_works i (FRows w) n 2 (ll M) (proj1 IH) Hn) as (P & EP & RP); [exists M; auto|].
        assert (GI : exists I, get_init_raw ls (ll M) (proba_of (ob i)) = Ok I /\ rect I n 1).
        { unfold get_init_raw. rewrite EP. cbn [bind]. destruct HLS as [->| ->]; apply init_two_works; auto. }
        destruct GI as (I & EI & RI). destruct (raw_works g M I n w 1) as (raw & -> & RR); auto; [exists (proba_of (ob i)); auto|].
        cbn [bind g gb_loss]. destruct HLS as [->| ->]; cbn [raw_to_proba]; apply two_works; auto; [apply (ta_expit _ TA)|]. intro x. destruct (ta_expit _ TA x) as [y ->]. cbn [bind]. eauto. }
      split; [apply leaf_works; exact W|]. log_by W. intro X. unfold gb_predict_log_proba. apply bind_ext. intros P _. apply apply_2d_ll.
    - split; [|discriminate]. apply leaf_works. intros n X Hn (M & -> & R). cbn [as_num]. eapply xgb_works; eauto.
    - assert (W : forall n X, 1 <= n -> of_form s n X -> exists P, logistic_predict_proba c (as_num X) = Ok P /\ rect P n (if K =? 1 then 2 else K)).
      { intros n X Hn HX. destruct (numeric_items s w n X HN Hn HX) as (Y & -> & NR). cbn [as_num]. unfold logistic_predict_proba. rewrite (is_ovr_yes c HO). cbn [bind]. eapply lr_works; eauto. }
      split; [apply leaf_works; exact W|]. log_by W. reflexivity.
    - assert (CP : check_proba c = Ok tt) by (unfold check_proba; rewrite HO; reflexivity).
      assert (W : forall n X, 1 <= n -> of_form s n X -> exists P, sgd_predict_proba_inner c (as_num X) = Ok P /\ rect P n (if K =? 1 then 2 else K)).
      { intros n X Hn HX. destruct (numeric_items s w n X HN Hn HX) as (Y & -> & NR). cbn [as_num]. unfold sgd_predict_proba_inner. rewrite HO. cbn [getattr bind]. rewrite str_eqb_refl. eapply lr_works; eauto. }
      unfold proba_ok. cbn [obj_of classifier o_proba o_log_proba]. rewrite CP. cbn [is_ok]. split; [apply leaf_works; exact W|]. log_by W. intro X. unfold sgd_predict_log_proba, sgd_predict_proba. rewrite CP. reflexivity.
    - assert (W : forall n (X : data A V), 1 <= n -> of_form (FRows w) n X -> exists P, nb_predict_log_proba (Multinomial d) (as_num X) = Ok P /\ rect P n k).
      { intros n X Hn (M & -> & RM). cbn [as_num]. eapply nb_log_works; eauto. }
      split; [|intros; apply leaf_works; exact W]. apply leaf_works. intros n X Hn HX. unfold nb_predict_proba. destruct (W n X Hn HX) as (P & -> & RP). cbn [bind]. apply map_rect; auto. apply (ta_exp _ TA).
    - assert (W : forall n (X : data A V), 1 <= n -> of_form (FRows w) n X -> exists P, nb_predict_log_proba (Complement d) (as_num X) = Ok P /\ rect P n k).
      { intros n X Hn (M & -> & RM). cbn [as_num]. eapply nb_log_works; eauto. }
      split; [|intros; apply leaf_works; exact W]. apply leaf_works. intros n X Hn HX. unfold nb_predict_proba. destruct (W n X Hn HX) as (P & -> & RP). cbn [bind]. apply map_rect; auto. apply (ta_exp _ TA).
    - assert (W : forall n X, 1 <= n -> of_form s n X -> exists P, dummy_predict_proba d (as_sized X) = Ok P /\ rect P n k).
      { intros n X Hn HX. unfold dummy_predict_proba. rewrite (sized_len s n X Hn HX). cbn [bind]. eexists. split; [reflexivity|]. unfold rep. split; [apply repeat_length|].
        apply Forall_forall. intros r Hr. apply repeat_spec in Hr. subst r. auto. }
      split; [eexists; split; [reflexivity|]; intros n X Hn HX; apply W; auto|]. intros g0 _. eexists. split; [reflexivity|]. intros n X Hn HX. cbn [fst]. unfold dummy_predict_log_proba.
      destruct (W n X Hn HX) as (P & -> & RP). cbn [bind]. rewrite apply_2d_ll. apply map_rect; auto. apply (ta_log _ TA).
    - destruct IH as [W1 W2]. split; [apply works_last; exact W1|]. intros g E. apply (works_last o_log_proba nm (ob e)). cbn [obj_of pipeline o_log_proba map fst snd] in E. unfold pipe_method, last_step in E. cbn [length Nat.sub nth_error option_map snd] in E.
      destruct (o_log_proba (ob e)) as [g'|] eqn:EG; [|discriminate]. exact (W2 g' eq_refl).
    - pose proof (maps_handles TA veq vnum U veq_ok GU e s s1 HM) as HH. destruct IH as [W1 W2]. split; [eapply works_step; [exact HH|exact W1]|]. intros g E. eapply works_step; [exact HH|].
      destruct rest as [|y rest]; [inversion H|]. cbn [obj_of pipeline o_log_proba map] in E. apply step_method in E. destruct E as [f E]. exact (W2 f E).
  Qed.

  (** Predictions. *)
  Definition sized_preds (n : nat) (p : preds A L) : Prop := match p with PLab l => length l = n | PIdx l => length l = n | PNum l => length l = n end.
  Theorem answers_works : forall e s, answers U e s -> works (o_predict (ob e)) s sized_preds.
  Proof.
    intros e s H. induction H as [kd c s w K b HN HF HC|t s w HN HT|nm e s H IH|nm e rest s s1 HM H IH].
    - assert (E : o_predict (ob (ELinear kd c)) = Est.reads (fun X => l <- linear_predict c X ;; Ok (PLab l))) by (destruct kd; reflexivity). rewrite E. eexists. split; [reflexivity|]. intros n X Hn HX. cbn [fst].
      destruct (numeric_items s w n X HN Hn HX) as (Y & -> & NR). cbn [as_num]. destruct (linear_label c s w K b n Y Hn HF NR HC) as (p & -> & Lp). cbn [bind]. eauto.
    - eexists. split; [reflexivity|]. intros n X Hn HX. cbn [fst]. destruct (numeric_items s w n X HN Hn HX) as (Y & -> & NR). cbn [as_num]. destruct (reg_works t s w n Y HT NR) as (p & -> & Lp). cbn [bind]. eauto.
    - apply (works_last o_predict nm (ob e)). exact IH.
    - eapply (works_step o_predict nm (ob e)); [apply maps_handles; eauto|exact IH].
  Qed.
End Classifiers.
