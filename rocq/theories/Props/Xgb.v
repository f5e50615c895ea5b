(** C14-C15: converted XGBClassifier (pure_sklearn/xgboost/_classes.py). *)
From Coq Require Import String Reals Lia Lra.
From Flocq Require Import Core BinarySingleNaN.
From Verif Require Import Model.Py Model.Arith Model.F64 Model.XR Model.Utils Model.Base Model.Tree Model.Xgb.
From Verif Require Import Spec.Matrix Spec.Ensembles Spec.Reals Spec.Libm Spec.Trees Spec.Xgb.
From Verif Require Import Proofs.Lib Proofs.Laws Proofs.Unit Proofs.Arrays Proofs.Arrays2 Proofs.CRLibm Proofs.RealLib
  Proofs.Argmax Proofs.Tree Proofs.Ensemble Proofs.Boosting Proofs.Xgb.
Local Open Scope nat_scope.

(** C14.  Conversion of a dumped tree succeeds, and keeps its shape, thresholds
    and leaf values, but reduces every feature number modulo 10. *)
Theorem C14_conversion : forall (A : arith) (L : Type) (x : xgb_tree A) (s : dtree A),
  parsable x -> dumps x 0 s -> exists t : tree A L, tree_of_xgb x = Ok t /\ encodes t 0 (mod10 s).
Proof.
  intros A L x s HP HD. destruct (conv_total (L:=L) x HP) as [t E]. exists t. split; auto. eapply conv_encodes; eauto.
Qed.
Print Assumptions C14_conversion.

(** With at most ten features every split tests the right column.  Missing:
    features numbered 10 and above (refuted below). *)
Theorem C14_partial : forall (A : arith) (L : Type) (x : xgb_tree A) (s : dtree A),
  parsable x -> dumps x 0 s -> features_below 10 s ->
  exists t : tree A L, tree_of_xgb x = Ok t /\ encodes t 0 s.
Proof.
  intros A L x s HP HD HB. destruct (C14_conversion A L x s HP HD) as (t & E & H). rewrite (mod10_small s HB) in H. eauto.
Qed.
Print Assumptions C14_partial.

(** A stump splitting on feature [f]. *)
Definition stump_dump {A : arith} (w : pystr) (h a b : A) : xgb_tree A :=
  {| x_feature := [lit "f" ++ w; lit "Leaf"; lit "Leaf"]; x_split := [h; nanv; nanv];
     x_yes := [Some (lit "0-1"); None; None]; x_no := [Some (lit "0-2"); None; None]; x_gain := [zero; a; b] |}.
Lemma num1 : numeral (lit "1") 1. Proof. apply (numeral_one 1). lia. Qed.
Lemma num2 : numeral (lit "2") 2. Proof. apply (numeral_one 2). lia. Qed.
Lemma num10 : numeral (lit "10") 10.
Proof. apply (numeral_more (lit "1") 1 0 num1). lia. Qed.
Lemma stump_dumps : forall (A : arith) w f (h a b : A), numeral w f -> isnan h = false ->
  parsable (stump_dump w h a b) /\ dumps (stump_dump w h a b) 0 (Node f h (Leaf [a]) (Leaf [b])).
Proof.
  intros A w f h a b K N. split.
  - split; [|split]; simpl.
    + constructor; [right; exists w, f; auto|]. repeat constructor.
    + constructor; [exists (lit "0"), (lit "1"), 1; split; [reflexivity|apply num1]|]. repeat constructor.
    + constructor; [exists (lit "0"), (lit "2"), 2; split; [reflexivity|apply num2]|]. repeat constructor.
  - eapply (dump_node _ 0 1 2 f h _ _ w (lit "0") (lit "1") (lit "0") (lit "2")); simpl; auto; try apply num1; try apply num2.
    + eapply dump_leaf; simpl; reflexivity.
    + eapply dump_leaf; simpl; reflexivity.
Qed.

(** A split on feature f10 tests column 0: for every threshold h, leaf values a
    and b, and 11-column row whose column 10 is below the threshold but whose
    column 0 is above it, the converted tree returns b although xgboost's tree
    returns a. *)
Theorem C14_refuted : forall (A : arith) (L : Type) (h a b : A) (row : list A) x0 x10,
  isnan h = false -> nth_error row 0 = Some x0 -> nth_error row 10 = Some x10 ->
  isnan x10 = false -> ltb x10 h = true -> leb x0 h = false ->
  exists t : tree A L, tree_of_xgb (stump_dump (lit "10") h a b) = Ok t /\
    dumps (stump_dump (lit "10") h a b) 0 (Node 10 h (Leaf [a]) (Leaf [b])) /\
    xfall row (Node 10 h (Leaf [a]) (Leaf [b])) = Some [a] /\
    reg_predict t (ll [row]) = Ok [b].
Proof.
  intros A L h a b row x0 x10 N H0 H10 N10 LT GT.
  destruct (stump_dumps A (lit "10") 10 h a b num10 N) as [HP HD].
  destruct (C14_conversion A L _ _ HP HD) as (t & E & HE). exists t. split; auto. split; auto. split.
  - cbn [xfall]. rewrite H10, N10, LT. auto.
  - rewrite (reg_map t _ [row] (fun _ => b) HE); auto; [discriminate|]. intros r [<-|[]]. exists [].
    cbn [mod10 fall]. change (10 mod 10) with 0. rewrite H0, GT. auto.
Qed.
Print Assumptions C14_refuted.

Example C14_case : forall m : libm, features_below 10 (Node 2 (one : F64 m) (Leaf [zero]) (Leaf [one])) /\
  parsable (stump_dump (A:=F64 m) (lit "2") one zero one) /\
  dumps (stump_dump (A:=F64 m) (lit "2") one zero one) 0 (Node 2 one (Leaf [zero]) (Leaf [one])) /\
  isnan (one : F64 m) = false /\ ltb (zero : F64 m) one = true /\ leb (ofZ 2 : F64 m) one = false.
Proof.
  intro m. split; [simpl; lia|]. pose proof (stump_dumps (F64 m) (lit "2") 2 one zero one num2 eq_refl) as [H1 H2]. repeat split; try apply H1; auto.
Qed.

(** C15.  A booster of [ne] rounds and [nc] classes: tree number e*nc+k of the
    dump is the tree [T e k] (with two classes, [nc] is 1 below and there is
    one tree per round). *)
Definition booster {A : arith} (df : list (df_row A)) (ne nc : nat) (T : nat -> nat -> dtree A) : Prop :=
  forall e k, e < ne -> k < nc -> exists rows, rows_of (Z.of_nat (e * nc + k)) df rows /\
    parsable (dump_of rows) /\ dumps (dump_of rows) 0 (T e k) /\ features_below 10 (T e k).
Lemma booster_tree : forall (A : arith) (df : list (df_row A)) ne nc T, booster df ne nc T -> forall e k, e < ne -> k < nc ->
  parsable (df_tree df (Z.of_nat (e * nc + k))) /\ dumps (df_tree df (Z.of_nat (e * nc + k))) 0 (T e k) /\ features_below 10 (T e k).
Proof. intros A df ne nc T HB e k He Hk. destruct (HB e k He Hk) as (rows & R & H). rewrite (df_tree_rows _ _ _ R). exact H. Qed.

(** In any arithmetic: converting a softprob booster with [nc] <> 2 classes and
    predicting sums, per class k, the leaf values of the trees e*nc+k, from left
    to right, and applies softmax.  (Left means <=; see below.) *)
Theorem C15_multi : forall (A : arith) (L : Type) (s : xgb_src A L) df ne nc T (M : list (list A)) (V : nat -> nat -> list A -> A),
  xs_objective s = lit "multi:softprob" -> xs_booster s = lit "gbtree" -> xs_df s = Some df ->
  xs_nclasses s = Z.of_nat nc -> xs_nest s = Z.of_nat ne -> nc <> 2 -> booster df ne nc T -> M <> [] ->
  (forall e k row, e < ne -> k < nc -> In row M -> fall row (T e k) = Some [V e k row]) ->
  exists g, xgb_convert s = Ok g /\ xg_classes g = xs_classes s /\
    xgb_predict_proba g (ll M) =
    mapM (fun row => sfmax (map (fun k => fold_left add (map (fun e => V e k row) (seq 0 ne)) zero) (seq 0 nc))) M.
Proof.
  intros A L s df ne nc T M V HO HG HD HC HE N2 HB NM HV. pose proof (booster_tree _ _ _ _ _ HB) as HB'. clear HB. rename HB' into HB. unfold xgb_convert. rewrite HO, HG, HD. cbn [guard bind].
  change (mem str_eqb (lit "multi:softprob") SUPPORTED_OBJ) with true. change (str_eqb (lit "gbtree") (lit "gbtree")) with true.
  cbn [guard bind]. rewrite HC, HE, build_many by lia. rewrite !Nat2Z.id.
  assert (B : exists tss, length tss = ne /\ mapM (fun e => ts <- mapM (fun k => tree_of_xgb (L:=L) (df_tree df (Z.of_nat e * Z.of_nat nc + Z.of_nat k))) (seq 0 nc) ;; Ok (Many ts)) (seq 0 ne) = Ok (map Many tss)
     /\ forall e k, e < ne -> k < nc -> exists ts t, nth_error tss e = Some ts /\ nth_error ts k = Some t /\ encodes t 0 (T e k)).
  { assert (R : forall e, e < ne -> exists ts, mapM (fun k => tree_of_xgb (L:=L) (df_tree df (Z.of_nat e * Z.of_nat nc + Z.of_nat k))) (seq 0 nc) = Ok ts).
    { intros e He. apply mapM_total. intros k Hk. apply in_seq in Hk. destruct (HB e k) as (H1 & _ & _); [lia|lia|].
      replace (Z.of_nat e * Z.of_nat nc + Z.of_nat k)%Z with (Z.of_nat (e * nc + k)) by lia. apply conv_total. auto. }
    assert (R' : exists tss, mapM (fun e => mapM (fun k => tree_of_xgb (L:=L) (df_tree df (Z.of_nat e * Z.of_nat nc + Z.of_nat k))) (seq 0 nc)) (seq 0 ne) = Ok tss).
    { apply mapM_total. intros e He. apply in_seq in He. apply R. lia. }
    destruct R' as [tss Et]. exists tss. split; [erewrite (mapM_length _ _ _ Et); apply seq_length|]. split.
    - clear - Et. apply mapM_Forall2 in Et. apply mapM_Forall2. apply Forall2_map_r. eapply Forall2_imp; [|exact Et].
      intros e ts Q. cbv beta in Q |- *. rewrite Q. auto.
    - intros e k He Hk. apply mapM_Forall2 in Et. apply Forall2_nth_error in Et. destruct Et as [Ln Et].
      assert (Se : nth_error (seq 0 ne) e = Some e) by (rewrite nth_error_seq; destruct (Nat.ltb_spec e ne); [auto|lia]).
      destruct (nth_error_len _ _ _ _ (eq_sym Ln) Se) as [ts Hts]. specialize (Et e e ts Se Hts). cbv beta in Et.
      apply mapM_Forall2 in Et. apply Forall2_nth_error in Et. destruct Et as [Ln' Et].
      assert (Sk : nth_error (seq 0 nc) k = Some k) by (rewrite nth_error_seq; destruct (Nat.ltb_spec k nc); [auto|lia]).
      destruct (nth_error_len _ _ _ _ (eq_sym Ln') Sk) as [t Ht]. specialize (Et k k t Sk Ht). exists ts, t. split; auto. split; auto.
      destruct (HB e k He Hk) as (_ & H2 & H3). rewrite <- (mod10_small (T e k) H3). eapply conv_encodes; [exact H2|].
      rewrite <- Et. f_equal. f_equal. lia. }
  destruct B as (tss & Lt & -> & BT). cbn [bind]. eexists. split; [reflexivity|]. split; [reflexivity|].
  set (g := {| xg_objective := _ |}). unfold xgb_predict_proba. destruct M as [|r0 M']; [congruence|]. set (M := r0 :: M') in *.
  change (check_array (ll M) HError) with (Ok (ll M)). cbn [bind].
  change (str_eqb (xg_objective g) (lit "multi:softprob")) with true. cbv iota.
  rewrite (scores_many g M V nc ne tss) by (auto; intros e k He Hk; destruct (BT e k He Hk) as (ts & t & H1 & H2 & H3); exists ts, t;
    split; auto; split; auto; apply (reg_map t _ M (V e k) H3); auto; intros row Hr; exists []; apply HV; auto).
  cbn [bind]. rewrite len_ll. cbn [bind]. rewrite <- (mapM_range_nth M).
  apply mapM_ext. intros i Hi. unfold range in Hi. apply in_seq in Hi. destruct (lnth_lt M i ltac:(lia)) as (row & E1 & E2).
  rewrite E1. cbn [bind]. change (xg_nclasses g) with (Z.of_nat nc). rewrite zrange_nat, mapM_map.
  rewrite (mapM_pure _ (fun k => fold_left add (map (fun e => V e k row) (seq 0 ne)) zero)); [reflexivity|].
  intros k Hk. apply in_seq in Hk. rewrite lget_nat. unfold lnth. rewrite nth_error_map', nth_error_seq.
  destruct (Nat.ltb_spec k nc); [|lia]. cbn [option_map bind Nat.add]. rewrite nth_error_map', E2. auto.
Qed.
Print Assumptions C15_multi.

(** The same, with xgboost's own rule (strictly below goes to Yes), in exact
    arithmetic, when no tested cell equals its threshold: probabilities are the
    softmax of the per-class sums, each row is a distribution, and predict is
    the class with the largest sum.  Missing: rows with ties (refuted below)
    and features numbered 10 and above (C14). *)
Theorem C15_multi_partial : forall (L : Type) (s : xgb_src XR L) df ne nc T (M : list (list XR)) (V : nat -> nat -> list XR -> R),
  xs_objective s = lit "multi:softprob" -> xs_booster s = lit "gbtree" -> xs_df s = Some df ->
  xs_nclasses s = Z.of_nat nc -> xs_nest s = Z.of_nat ne -> nc <> 2 -> 1 <= nc -> booster df ne nc T -> M <> [] ->
  (forall e k row, e < ne -> k < nc -> In row M -> xfall row (T e k) = Some [XFin (V e k row)] /\ no_tie row (T e k)) ->
  let score row := map (fun k => Rsum (map (fun e => V e k row) (seq 0 ne))) (seq 0 nc) in
  exists g, xgb_convert s = Ok g /\
    xgb_predict_proba g (ll M) = Ok (finss (map (fun row => softmax (score row)) M)) /\
    Forall (fun row => distribution (softmax (score row))) M /\
    forall out, xgb_predict g (ll M) = Ok out <->
      Forall2 (fun row y => exists k, Rargmax (score row) k /\ nth_error (xs_classes s) k = Some y) M out.
Proof.
  intros L s df ne nc T M V HO HG HD HC HE N2 N1 HB NM HV score.
  destruct (C15_multi XR L s df ne nc T M (fun e k row => XFin (V e k row)) HO HG HD HC HE N2 HB NM) as (g & Eg & Ec & EP).
  { intros e k row He Hk Hr. destruct (HV e k row He Hk Hr) as [H1 H2]. apply (fall_xfall XR_ord); auto. }
  assert (S : forall row, sfmax (A:=XR) (map (fun k => fold_left (add (a:=XR)) (map (fun e => XFin (V e k row) : XR) (seq 0 ne)) zero) (seq 0 nc)) = Ok (fins (softmax (score row)))).
  { intro row. rewrite <- sfmax_XR. f_equal. unfold score, fins. rewrite map_map. apply map_ext. intro k. rewrite x_zero.
    transitivity (fold_left (add (a:=XR)) (fins (map (fun e => V e k row) (seq 0 ne))) (XFin 0)).
    - unfold fins. rewrite map_map. auto.
    - rewrite fold_fins. f_equal. apply Rplus_0_l. }
  assert (EP' : xgb_predict_proba g (ll M) = Ok (finss (map (fun row => softmax (score row)) M))).
  { rewrite EP. rewrite (mapM_pure _ (fun row => fins (softmax (score row)))) by auto. unfold finss. rewrite map_map. auto. }
  exists g. split; auto. split; auto. split.
  - apply Forall_forall. intros row _. apply softmax_dist. unfold score. destruct nc; [lia|discriminate].
  - intro out. unfold xgb_predict. rewrite EP'. cbn [bind]. rewrite (pick_ok _ XR_ord). rewrite Ec. unfold finss. rewrite !Forall2_map_l.
    apply Forall2_iff. intros row y. split; intros (k & B & Y); exists k; split; auto.
    + apply Rargmax_softmax, best_fins, B.
    + apply best_fins, Rargmax_softmax, B.
Qed.
Print Assumptions C15_multi_partial.

(** Two classes, objective binary:logistic: one tree per round. *)
Theorem C15_binary : forall (A : arith) (L : Type) (s : xgb_src A L) df ne T (M : list (list A)) (V : nat -> list A -> A),
  xs_objective s = lit "binary:logistic" -> xs_booster s = lit "gbtree" -> xs_df s = Some df ->
  xs_nclasses s = 2%Z -> xs_nest s = Z.of_nat ne -> booster df ne 1 (fun e _ => T e) -> M <> [] ->
  (forall e row, e < ne -> In row M -> fall row (T e) = Some [V e row]) ->
  exists g, xgb_convert s = Ok g /\ xg_classes g = xs_classes s /\
    xgb_predict_proba g (ll M) =
    mapM (fun row => p <- expit (fold_left add (map (fun e => V e row) (seq 0 ne)) zero) ;; Ok [sub one p; p]) M.
Proof.
  intros A L s df ne T M V HO HG HD HC HE HB NM HV. pose proof (booster_tree _ _ _ _ _ HB) as HB'. clear HB. rename HB' into HB. unfold xgb_convert. rewrite HO, HG, HD. cbn [guard bind].
  change (mem str_eqb (lit "binary:logistic") SUPPORTED_OBJ) with true. change (str_eqb (lit "gbtree") (lit "gbtree")) with true.
  cbn [guard bind]. rewrite HC, HE, build_one, Nat2Z.id.
  assert (B : exists ts, length ts = ne /\ mapM (fun e => t <- tree_of_xgb (L:=L) (df_tree df (Z.of_nat e)) ;; Ok (One t)) (seq 0 ne) = Ok (map One ts)
     /\ forall e t, nth_error ts e = Some t -> e < ne /\ encodes t 0 (T e)).
  { assert (R : exists ts, mapM (fun e => tree_of_xgb (L:=L) (df_tree df (Z.of_nat e))) (seq 0 ne) = Ok ts).
    { apply mapM_total. intros e He. apply in_seq in He. destruct (HB e 0) as (H1 & _ & _); [lia|lia|].
      replace (e * 1 + 0) with e in H1 by lia. apply conv_total. auto. }
    destruct R as [ts Et]. exists ts. split; [erewrite (mapM_length _ _ _ Et); apply seq_length|]. split.
    - clear - Et. apply mapM_Forall2 in Et. apply mapM_Forall2. apply Forall2_map_r. eapply Forall2_imp; [|exact Et].
      intros e t Q. cbv beta in Q |- *. rewrite Q. auto.
    - intros e t Ht. pose proof (mapM_length _ _ _ Et) as Ln. rewrite seq_length in Ln.
      assert (He : e < ne) by (rewrite <- Ln; eapply nth_error_lt; eauto). split; auto.
      apply mapM_Forall2 in Et. apply Forall2_nth_error in Et. destruct Et as [_ Et].
      assert (Se : nth_error (seq 0 ne) e = Some e) by (rewrite nth_error_seq; destruct (Nat.ltb_spec e ne); [auto|lia]).
      specialize (Et e e t Se Ht). cbv beta in Et. destruct (HB e 0 He ltac:(lia)) as (_ & H2 & H3).
      rewrite <- (mod10_small (T e) H3). eapply conv_encodes; [exact H2|]. rewrite <- Et. f_equal. f_equal. lia. }
  destruct B as (ts & Lt & -> & BT). cbn [bind]. eexists. split; [reflexivity|]. split; [reflexivity|].
  set (g := {| xg_objective := _ |}). unfold xgb_predict_proba. destruct M as [|r0 M']; [congruence|]. set (M := r0 :: M') in *.
  change (check_array (ll M) HError) with (Ok (ll M)). cbn [bind].
  change (str_eqb (xg_objective g) (lit "multi:softprob")) with false.
  change (str_eqb (xg_objective g) (lit "binary:logistic")) with true. cbv iota.
  rewrite (scores_one g M V ne ts) by (auto; intros e t Ht; destruct (BT e t Ht) as [He HEn];
    apply (reg_map t _ M (V e) HEn); auto; intros row Hr; exists []; apply HV; auto).
  cbn [bind]. rewrite mapM_map. clear. clearbody M. induction M as [|row M IH]; auto. cbn [mapM].
  destruct (expit _) as [p|e]; [|auto]. cbn [bind]. rewrite <- IH. destruct (mapM _ M); auto.
Qed.
Print Assumptions C15_binary.

Theorem C15_binary_partial : forall (L : Type) (s : xgb_src XR L) df ne T (M : list (list XR)) (V : nat -> list XR -> R) c0 c1,
  xs_objective s = lit "binary:logistic" -> xs_booster s = lit "gbtree" -> xs_df s = Some df ->
  xs_nclasses s = 2%Z -> xs_nest s = Z.of_nat ne -> booster df ne 1 (fun e _ => T e) -> M <> [] -> xs_classes s = [c0; c1] ->
  (forall e row, e < ne -> In row M -> xfall row (T e) = Some [XFin (V e row)] /\ no_tie row (T e)) ->
  let score row := Rsum (map (fun e => V e row) (seq 0 ne)) in
  exists g, xgb_convert s = Ok g /\
    xgb_predict_proba g (ll M) = Ok (finss (map (fun row => [(1 - logistic (score row))%R; logistic (score row)]) M)) /\
    Forall (fun row => distribution [(1 - logistic (score row))%R; logistic (score row)]) M /\
    xgb_predict g (ll M) = Ok (map (fun row => if Rlt_dec 0 (score row) then c1 else c0) M).
Proof.
  intros L s df ne T M V c0 c1 HO HG HD HC HE HB NM HL HV score.
  destruct (C15_binary XR L s df ne T M (fun e row => XFin (V e row)) HO HG HD HC HE HB NM) as (g & Eg & Ec & EP).
  { intros e row He Hr. destruct (HV e row He Hr) as [H1 H2]. apply (fall_xfall XR_ord); auto. }
  assert (EP' : xgb_predict_proba g (ll M) = Ok (finss (map (fun row => [(1 - logistic (score row))%R; logistic (score row)]) M))).
  { rewrite EP. rewrite (mapM_pure _ (fun row => fins [(1 - logistic (score row))%R; logistic (score row)])).
    - unfold finss. rewrite map_map. auto.
    - intros row _. replace (fold_left add (map (fun e => XFin (V e row) : XR) (seq 0 ne)) zero) with (XFin (score row) : XR).
      + rewrite expit_XR. cbn [bind]. rewrite x_one. auto.
      + rewrite x_zero. transitivity (fold_left (add (a:=XR)) (fins (map (fun e => V e row) (seq 0 ne))) (XFin 0)).
        * rewrite fold_fins. unfold score. f_equal. symmetry. apply Rplus_0_l.
        * unfold fins. rewrite map_map. auto. }
  exists g. split; auto. split; auto. split.
  - apply Forall_forall. intros row _. pose proof (logistic_pos (score row)). split; [repeat constructor; lra|simpl; lra].
  - unfold xgb_predict. rewrite EP'. cbn [bind]. apply (pick_ok _ XR_ord). rewrite Ec, HL. unfold finss.
    rewrite !Forall2_map_l, Forall2_map_r. clear. induction M as [|row M IH]; constructor; auto.
    eexists. split; [apply best_fins, Rargmax_two; reflexivity|].
    assert (Q : (1 - logistic (score row) < logistic (score row) <-> 0 < score row)%R).
    { rewrite <- (logistic_lt 0 (score row)), logistic_0. lra. }
    destruct (Rlt_dec (1 - logistic (score row)) (logistic (score row))), (Rlt_dec 0 (score row)); try lra; auto; exfalso; tauto.
Qed.
Print Assumptions C15_binary_partial.

(** predict is the label at the first largest probability (doubles). *)
Theorem C15_predict : forall (m : libm) (L : Type) (g : xgb (F64 m) L) X out,
  xgb_predict g X = Ok out <->
  exists P, xgb_predict_proba g X = Ok P /\
    Forall2 (fun p y => exists i, best p i /\ nth_error (xg_classes g) i = Some y) P out.
Proof.
  intros m L g X out. unfold xgb_predict. split.
  - intro H. inv_bind H. apply (pick_ok _ (F64_ord m)) in H. eauto.
  - intros (P & -> & H). cbn [bind]. apply (pick_ok _ (F64_ord m)). auto.
Qed.
Print Assumptions C15_predict.

(** A row exactly on a split is sent to the other side than by xgboost:
    whatever the feature (below 10), threshold and leaf values. *)
Theorem C15_tie_refuted : forall (A : arith) (L : Type) (h a b : A), ord_ok A -> isnan h = false ->
  exists t : tree A L, tree_of_xgb (stump_dump (lit "1") h a b) = Ok t /\
    dumps (stump_dump (lit "1") h a b) 0 (Node 1 h (Leaf [a]) (Leaf [b])) /\
    xfall [h; h] (Node 1 h (Leaf [a]) (Leaf [b])) = Some [b] /\ reg_predict t (ll [[h; h]]) = Ok [a].
Proof.
  intros A L h a b OK N. destruct (stump_dumps A (lit "1") 1 h a b num1 N) as [HP HD].
  destruct (C14_conversion A L _ _ HP HD) as (t & E & HE). exists t. split; auto. split; auto. split.
  - cbn [xfall nth_error]. rewrite N, (o_irr _ OK). auto.
  - rewrite (reg_map t _ [[h; h]] (fun _ => a) HE); auto; [discriminate|]. intros r [<-|[]]. exists [].
    cbn [mod10 fall]. change (1 mod 10) with 1. cbn [nth_error]. rewrite (leb_refl OK) by auto. auto.
Qed.
Print Assumptions C15_tie_refuted.

(** A softprob booster with two classes converts but cannot predict (TypeError);
    a logistic one with another number of classes cannot either (AttributeError). *)
Theorem C15_mismatch : forall (A : arith) (L : Type) (s : xgb_src A L) (g : xgb A L) (M : list (list A)),
  xgb_convert s = Ok g -> (1 <= xs_nest s)%Z -> M <> [] ->
  (xs_objective s = lit "multi:softprob" -> xs_nclasses s = 2%Z -> xgb_predict_proba g (ll M) = Err TypeError) /\
  (xs_objective s = lit "binary:logistic" -> (0 <= xs_nclasses s)%Z -> xs_nclasses s <> 2%Z -> xgb_predict_proba g (ll M) = Err AttributeError).
Proof.
  intros A L s g M H HE NM. unfold xgb_convert in H. inv_bind H. inv_bind H. inv_bind H. rename a1 into df. inv_bind H. rename a1 into es.
  inversion H; subst g; clear H. destruct M as [|r0 M]; [congruence|]. rename E2 into EB.
  assert (HS : exists n, Z.to_nat (xs_nest s) = S n) by (exists (Z.to_nat (xs_nest s) - 1); lia). destruct HS as [n HS]. split.
  - intros HO HC. rewrite HC, build_one, HS in EB. cbn [seq mapM] in EB. inv_bind EB. inv_bind EB. inversion EB; subst es.
    inv_bind E2. inversion E2; subst a1.
    unfold xgb_predict_proba. cbn [check_array ll map bind xg_objective]. rewrite HO, HC.
    change (str_eqb (lit "multi:softprob") (lit "multi:softprob")) with true. cbv iota.
    unfold xgb_scores. cbn [xg_nclasses xg_nest xg_estimators]. change (zrange 0 2) with [0%Z; 1%Z]. cbn [mapM len items bind].
    rewrite (zrange_cons 0 (xs_nest s)) by lia. cbn [foldM]. reflexivity.
  - intros HO HC0 HC. rewrite build_many, HS in EB by auto. cbn [seq mapM] in EB. inv_bind EB. inv_bind EB. inversion EB; subst es.
    inv_bind E2. inversion E2; subst a1.
    unfold xgb_predict_proba. cbn [check_array ll map bind xg_objective]. rewrite HO. reflexivity.
Qed.
Print Assumptions C15_mismatch.

(** Unsupported objectives and boosters are rejected at conversion, sparse
    input at prediction. *)
Theorem C15_rejected : forall (A : arith) (L : Type) (s : xgb_src A L) (g : xgb A L) rows sz dt,
  (xs_objective s <> lit "multi:softprob" /\ xs_objective s <> lit "binary:logistic" -> xgb_convert s = Err ValueError) /\
  (xs_booster s <> lit "gbtree" -> xgb_convert s = Err ValueError) /\
  xgb_predict_proba g (Sp rows sz dt) = Err ValueError /\ xgb_predict g (Sp rows sz dt) = Err ValueError.
Proof.
  intros A L s g rows sz dt. split; [|split; [|split; reflexivity]].
  - intros [N1 N2]. unfold xgb_convert. destruct (mem str_eqb (xs_objective s) SUPPORTED_OBJ) eqn:E; auto.
    apply (mem_in str_eqb str_eqb_ok) in E. destruct E as [E|[E|[]]]; congruence.
  - intro N. unfold xgb_convert. destruct (mem str_eqb (xs_objective s) SUPPORTED_OBJ); auto. cbn [guard bind].
    destruct (str_eqb (xs_booster s) (lit "gbtree")) eqn:E; auto. apply str_eqb_ok in E. congruence.
Qed.
Print Assumptions C15_rejected.

(** A one-round binary booster (a stump on column 1) meets the hypotheses. *)
Definition stump_df : list (df_row XR) :=
  [ @Build_df_row XR 0 (lit "f1") (XFin 1) (Some (lit "0-1")) (Some (lit "0-2")) (XFin 9);
    @Build_df_row XR 0 (lit "Leaf") XNaN None None (XFin 2);
    @Build_df_row XR 0 (lit "Leaf") XNaN None None (XFin 3) ].
Definition stump_src : xgb_src XR nat :=
  {| xs_objective := lit "binary:logistic"; xs_booster := lit "gbtree"; xs_classes := [7; 8]; xs_nclasses := 2; xs_nest := 1; xs_df := Some stump_df |}.
Definition stump_tree : dtree XR := Node (A:=XR) 1 (XFin 1) (Leaf (A:=XR) [XFin 2]) (Leaf (A:=XR) [XFin 3]).
Definition stump_row : list XR := [XFin 5; XFin 0].
Example C15_case : booster stump_df 1 1 (fun _ _ => stump_tree) /\
  xfall stump_row stump_tree = Some [XFin 2] /\
  no_tie stump_row stump_tree /\
  exists g, xgb_convert stump_src = Ok g /\ xgb_predict g (ll [stump_row]) = Ok [8].
Proof.
  assert (HB : booster stump_df 1 1 (fun _ _ => stump_tree)).
  { intros e k He Hk. destruct e; [|lia]. destruct k; [|lia]. exists stump_df. split; [repeat (apply rows_here; [reflexivity|]); apply rows_none|]. split; [|split].
    - split; [|split]; simpl.
      + constructor; [right; exists (lit "1"), 1; split; [reflexivity|apply num1]|]. repeat constructor.
      + constructor; [exists (lit "0"), (lit "1"), 1; split; [reflexivity|apply num1]|]. repeat constructor.
      + constructor; [exists (lit "0"), (lit "2"), 2; split; [reflexivity|apply num2]|]. repeat constructor.
    - eapply (dump_node _ 0 1 2 1 _ _ _ (lit "1") (lit "0") (lit "1") (lit "0") (lit "2")); simpl; auto; try apply num1; try apply num2.
      + apply (dump_leaf (A:=XR) _ 1 (XFin 2) XNaN); reflexivity.
      + apply (dump_leaf (A:=XR) _ 2 (XFin 3) XNaN); reflexivity.
    - simpl. lia. }
  assert (HF : xfall stump_row stump_tree = Some [XFin 2]).
  { cbn. replace (Rltb 0 1) with true by (symmetry; apply Rltb_lt; lra). auto. }
  assert (HT : no_tie stump_row stump_tree).
  { cbn. split; [|auto]. intros x E. inversion E. apply Reqb_neq. lra. }
  split; auto. split; auto. split; auto.
  destruct (C15_binary_partial nat stump_src stump_df 1 (fun _ => stump_tree)
    [stump_row] (fun _ _ => 2%R) 7 8) as (g & Eg & _ & _ & EP); auto; try discriminate.
  { intros e row He [<-|[]]. split; auto. }
  exists g. split; auto. rewrite EP. cbn. destruct (Rlt_dec 0 (2 + 0)) as [|C]; auto. exfalso; apply C; lra.
Qed.
