(** XGBoost conversion and prediction. *)
From Coq Require Import String Lia Reals.
From Verif Require Import Model.Py Model.Arith Model.XR Model.Utils Model.Base Model.Tree Model.Xgb.
From Verif Require Import Spec.Matrix Spec.Trees Spec.Xgb Spec.Reals Spec.Ensembles.
From Verif Require Import Proofs.Lib Proofs.Laws Proofs.Unit Proofs.Arrays Proofs.RealLib Proofs.Argmax Proofs.Tree Proofs.Ensemble.
Local Open Scope nat_scope.

(** Strings. *)
Definition digits (s : pystr) : Prop := Forall (fun c => is_digit c = true) s.
Lemma is_digit_d : forall d, d < 10 -> is_digit (48 + Z.of_nat d) = true.
Proof. intros d H. unfold is_digit. apply andb_true_intro. split; apply Z.leb_le; lia. Qed.
Lemma numeral_digits : forall s n, numeral s n -> digits s.
Proof.
  intros s n H; induction H as [d Hd|s n d H IH Hd]; [repeat constructor; apply is_digit_d; auto|].
  apply Forall_app. split; auto. repeat constructor. apply is_digit_d; auto.
Qed.
Lemma numeral_ne : forall s n, numeral s n -> s <> [].
Proof. intros s n H; destruct H; [discriminate|]. destruct s; discriminate. Qed.
Lemma numeral_fold : forall s n, numeral s n -> fold_left (fun acc c => acc * 10 + (c - 48))%Z s 0%Z = Z.of_nat n.
Proof. intros s n H; induction H as [d Hd|s n d H IH Hd]; [cbn [fold_left]; lia|]. rewrite fold_left_app, IH. cbn [fold_left]. lia. Qed.
Lemma digits_forallb : forall s, digits s -> forallb is_digit s = true.
Proof. intros s H. apply forallb_forall. apply Forall_forall. auto. Qed.
Lemma int_numeral : forall s n, numeral s n -> int_of_str s = Ok (Z.of_nat n).
Proof.
  intros s n H. unfold int_of_str. pose proof (numeral_ne _ _ H) as N. rewrite (digits_forallb s) by (eapply numeral_digits; eauto).
  rewrite (numeral_fold s n H). destruct s; [congruence|auto].
Qed.
Lemma numeral_last : forall s n, numeral s n -> exists s', s = s' ++ [(48 + Z.of_nat (n mod 10))%Z].
Proof.
  intros s n H; destruct H as [d Hd|s n d H Hd].
  - exists []. cbn [app]. rewrite Nat.mod_small by auto. auto.
  - exists s. replace ((10 * n + d) mod 10) with d; auto. rewrite Nat.add_comm, Nat.mul_comm, Nat.mod_add, Nat.mod_small by lia. auto.
Qed.
Lemma split_ne : forall c s, str_split_on c s <> [].
Proof. intros c [|x t]; simpl; [discriminate|]. destruct (x =? c)%Z; [discriminate|]. destruct (str_split_on c t); discriminate. Qed.
Lemma split_app : forall c t u, exists w ws, str_split_on c (t ++ c :: u) = (w :: ws) ++ str_split_on c u.
Proof.
  intros c t u; induction t as [|x t (w & ws & IH)]; cbn [app str_split_on].
  - rewrite Z.eqb_refl. exists [], []. auto.
  - rewrite IH. destruct (x =? c)%Z; [exists [], (w :: ws); auto|]. cbn [app]. exists (x :: w), ws. auto.
Qed.
Lemma split_last : forall t w, digits w -> exists ws, str_split_on 45 (t ++ lit "-" ++ w) = ws ++ [w].
Proof.
  assert (D : forall w, digits w -> str_split_on 45 w = [w]).
  { intros w H; induction H as [|c w Hc H IH]; auto. simpl. unfold is_digit in Hc. apply andb_prop in Hc. destruct Hc as [Hc _].
    apply Z.leb_le in Hc. destruct (Z.eqb_spec c 45); [lia|]. rewrite IH. auto. }
  intros t w H. destruct (split_app 45 t w) as (v & vs & E). exists (v :: vs). rewrite <- (D w H), <- E. auto.
Qed.
Lemma child_numeral : forall t w n, numeral w n -> xgb_child (Some (t ++ lit "-" ++ w)) = Ok (Z.of_nat n).
Proof.
  intros t w n H. unfold xgb_child. destruct (split_last t w (numeral_digits _ _ H)) as [ws ->]. rewrite lget_neg1. cbn [bind].
  apply int_numeral. auto.
Qed.
Lemma remove_digits : forall w, digits w -> str_remove 102 w = w.
Proof.
  intros w H; induction H as [|c w Hc H IH]; auto. simpl. unfold is_digit in Hc. apply andb_prop in Hc. destruct Hc as [_ Hc].
  apply Z.leb_le in Hc. destruct (Z.eqb_spec c 102); [lia|]. simpl. rewrite IH. auto.
Qed.
Lemma feature_numeral : forall w n, numeral w n -> xgb_feature (lit "f" ++ w) = Ok (Z.of_nat (n mod 10)).
Proof.
  intros w n H. unfold xgb_feature. assert (N : str_eqb (lit "f" ++ w) (lit "Leaf") = false) by reflexivity. rewrite N.
  assert (R : str_remove 102 (lit "f" ++ w) = w) by (simpl; apply remove_digits; eapply numeral_digits; eauto). rewrite R.
  destruct (numeral_last w n H) as [s' E]. rewrite E, lget_neg1. cbn [bind].
  apply (int_numeral _ (n mod 10)). constructor. apply Nat.mod_upper_bound. discriminate.
Qed.

Section Conv.
  Context {A : arith} {L : Type}.

  Lemma conv_total : forall (x : xgb_tree A), parsable x -> exists t : tree A L, tree_of_xgb x = Ok t.
  Proof.
    intros x (HF & HY & HN). unfold tree_of_xgb.
    assert (C : forall l, Forall child_ok l -> exists r, mapM xgb_child l = Ok r).
    { intros l H. apply mapM_total. intros c Hc. rewrite Forall_forall in H. specialize (H c Hc).
      destruct c as [s|]; [|eexists; reflexivity]. destruct H as (t & w & k & -> & K). exists (Z.of_nat k). apply child_numeral. auto. }
    destruct (C _ HY) as [y ->]. destruct (C _ HN) as [n ->]. cbn [bind].
    assert (F : exists f, mapM xgb_feature (x_feature x) = Ok f).
    { apply mapM_total. intros s Hs. rewrite Forall_forall in HF. destruct (HF s Hs) as [->|(w & k & -> & K)]; [eexists; reflexivity|].
      exists (Z.of_nat (k mod 10)). apply feature_numeral. auto. }
    destruct F as [f ->]. eexists. reflexivity.
  Qed.

  Lemma conv_encodes : forall (x : xgb_tree A) (t : tree A L) nd s, dumps x nd s -> tree_of_xgb x = Ok t -> encodes t nd (mod10 s).
  Proof.
    intros x t nd s H E. unfold tree_of_xgb in E. inv_bind E. rename a into y. inv_bind E. rename a into n. inv_bind E. rename a into f.
    inversion E; subst t; clear E.
    assert (G : forall {B C} (g : B -> res C) l r k b, mapM g l = Ok r -> nth_error l k = Some b -> exists c, g b = Ok c /\ nth_error r k = Some c).
    { intros B C g l r k b HM Hk. apply mapM_Forall2 in HM. apply Forall2_nth_error in HM. destruct HM as [Ln HM].
      destruct (nth_error_len _ _ _ _ (eq_sym Ln) Hk) as [c Hc]. exists c. split; auto. eapply HM; eauto. }
    induction H as [nd v h H1 H2 H3 H4 H5|nd l r fe h sl sr sf tl nl tr nr H1 H2 H3 H4 H5 H6 H7 H8 H9 _ IHl _ IHr]; cbn [mod10].
    - destruct (G _ _ _ _ _ _ _ E0 H3) as (c & Ec & Hc). destruct (G _ _ _ _ _ _ _ E1 H4) as (c' & Ec' & Hc').
      inversion Ec; subst c. inversion Ec'; subst c'. eapply enc_leaf; simpl; eauto. rewrite nth_error_map', H5. auto.
    - destruct (G _ _ _ _ _ _ _ E0 H5) as (c & Ec & Hc). pose proof (eq_trans (eq_sym Ec) (child_numeral _ _ _ H6)) as QEc. inversion QEc; subst c.
      destruct (G _ _ _ _ _ _ _ E1 H7) as (c' & Ec' & Hc'). pose proof (eq_trans (eq_sym Ec') (child_numeral _ _ _ H8)) as QEc'. inversion QEc'; subst c'.
      destruct (G _ _ _ _ _ _ _ E2 H1) as (c'' & Ef & Hf). pose proof (eq_trans (eq_sym Ef) (feature_numeral _ _ H2)) as QEf. inversion QEf; subst c''.
      eapply enc_node; simpl; eauto. rewrite nth_error_map', H3. simpl. rewrite H4. auto.
  Qed.

  Lemma mod10_small : forall s : dtree A, features_below 10 s -> mod10 s = s.
  Proof.
    intro s; induction s as [v|f h l IHl r IHr]; simpl; auto. intros (Hf & Hl & Hr).
    destruct f as [|[|[|[|[|[|[|[|[|[|f]]]]]]]]]]; try lia; rewrite IHl, IHr by auto; auto.
  Qed.

  Lemma fall_xfall : ord_ok A -> forall (row : list A) s v, no_tie row s -> xfall row s = Some v -> fall row s = Some v.
  Proof.
    intros OK row s; induction s as [w|f h l IHl r IHr]; simpl; auto. intros v (T & Tl & Tr).
    destruct (nth_error row f) as [x|]; [|discriminate]. destruct (isnan x) eqn:Nx; [discriminate|]. specialize (T x eq_refl).
    rewrite (o_leb _ OK), T, orb_false_r. destruct (ltb x h); auto.
  Qed.
End Conv.

(** The two loops that number the trees. *)
Lemma foldM_number : forall {X Y} (F : Z -> res X) (d : Z) (l : list Y) (step : list X * Z -> Y -> res (list X * Z)) acc i,
  (forall st y, step st y = (t <- F (snd st) ;; Ok (fst st ++ [t], (snd st + d)%Z))) ->
  foldM step l (acc, i) =
  (ts <- mapM F (map (fun j => (i + Z.of_nat j * d)%Z) (seq 0 (length l))) ;; Ok (acc ++ ts, (i + Z.of_nat (length l) * d)%Z)).
Proof.
  intros X Y F d l step acc i H. revert acc i; induction l as [|y l IH]; intros acc i.
  - simpl. rewrite app_nil_r. do 3 f_equal. lia.
  - cbn [foldM]. rewrite H. cbn [fst snd]. cbn [length seq map mapM]. replace (i + Z.of_nat 0 * d)%Z with i by lia.
    destruct (F i) as [t|e]; [|auto]. cbn [bind]. rewrite IH. rewrite <- seq_shift, map_map.
    rewrite (map_ext (fun x => (i + Z.of_nat (S x) * d)%Z) (fun j => (i + d + Z.of_nat j * d)%Z)) by (intros; lia).
    destruct (mapM F _) as [ts|e]; cbn [bind]; auto. rewrite <- app_assoc. simpl app. apply f_equal. apply f_equal2; [auto|lia].
Qed.

Section Build.
  Context {A : arith} {L : Type}.

  Lemma df_tree_rows : forall i (df rs : list (df_row A)), rows_of i df rs -> df_tree df i = dump_of rs.
  Proof.
    intros i df rs R. unfold df_tree, dump_of. assert (E : filter (fun r => (d_tree r =? i)%Z) df = rs).
    { induction R as [|r df rs H R IH|r df rs H R IH]; [reflexivity| |]; cbn [filter]; destruct (Z.eqb_spec (d_tree r) i); try contradiction; [f_equal|]; exact IH. }
    rewrite E. reflexivity.
  Qed.
  Lemma build_row_many : forall (df : list (df_row A)) nc idx, (0 <= nc)%Z -> nc <> 2%Z ->
    build_row (L:=L) df nc idx =
    (ts <- mapM (fun k => tree_of_xgb (df_tree df (idx + Z.of_nat k))) (seq 0 (Z.to_nat nc)) ;; Ok (Many ts, (idx + nc)%Z)).
  Proof.
    intros df nc idx H0 H2. unfold build_row. destruct (Z.eqb_spec nc 2); [lia|].
    rewrite (foldM_number (fun i => tree_of_xgb (L:=L) (df_tree df i)) 1 (zrange 0 nc) _ [] idx) by auto.
    rewrite mapM_map, zrange_length, Z.sub_0_r.
    rewrite (mapM_ext (fun x => tree_of_xgb (df_tree df (idx + Z.of_nat x * 1))) (fun k => tree_of_xgb (L:=L) (df_tree df (idx + Z.of_nat k)))).
    2:{ intros. rewrite Z.mul_1_r. auto. }
    destruct (mapM _ _) as [ts|e]; cbn [bind]; auto. simpl app. apply f_equal. apply f_equal2; [auto|lia].
  Qed.

  Lemma build_many : forall (df : list (df_row A)) nc ne, (0 <= nc)%Z -> nc <> 2%Z ->
    build_estimators (L:=L) df nc ne =
    mapM (fun e => ts <- mapM (fun k => tree_of_xgb (df_tree df (Z.of_nat e * nc + Z.of_nat k))) (seq 0 (Z.to_nat nc)) ;; Ok (Many ts))
         (seq 0 (Z.to_nat ne)).
  Proof.
    intros df nc ne H0 H2. unfold build_estimators.
    rewrite (foldM_number (fun i => ts <- mapM (fun k => tree_of_xgb (df_tree df (i + Z.of_nat k))) (seq 0 (Z.to_nat nc)) ;; Ok (Many (L:=L) ts)) nc (zrange 0 ne) _ [] 0%Z).
    2:{ intros st y. rewrite build_row_many by auto. destruct (mapM _ _) as [ts|e]; auto. }
    rewrite mapM_map, zrange_length, Z.sub_0_r.
    cbn [Z.add]. match goal with |- _ = ?x => set (m := x) end.
    match goal with |- (_ <- (_ <- ?x ;; _) ;; _) = _ => change x with m end. destruct m as [ts|e]; auto.
  Qed.

  Lemma build_one : forall (df : list (df_row A)) ne,
    build_estimators (L:=L) df 2 ne =
    mapM (fun e => t <- tree_of_xgb (df_tree df (Z.of_nat e)) ;; Ok (One t)) (seq 0 (Z.to_nat ne)).
  Proof.
    intros df ne. unfold build_estimators.
    rewrite (foldM_number (fun i => t <- tree_of_xgb (df_tree df i) ;; Ok (One (L:=L) t)) 1 (zrange 0 ne) _ [] 0%Z).
    2:{ intros st y. unfold build_row. change (2 =? 2)%Z with true. cbv iota. destruct (tree_of_xgb _) as [ts|e]; auto. }
    rewrite mapM_map, zrange_length, Z.sub_0_r.
    rewrite (mapM_ext _ (fun e => t <- tree_of_xgb (df_tree df (Z.of_nat e)) ;; Ok (One (L:=L) t))).
    2:{ intros. replace (0 + Z.of_nat x * 1)%Z with (Z.of_nat x) by lia. auto. }
    destruct (mapM _ _) as [ts|e]; auto.
  Qed.
End Build.

(** Adding up predictions. *)
Section Scores.
  Context {A : arith} {L : Type}.

  Lemma reg_map : forall (t : tree A L) s (M : list (list A)) (V : list A -> A), encodes t 0 s -> M <> [] ->
    (forall row, In row M -> exists v, fall row s = Some (V row :: v)) -> reg_predict t (ll M) = Ok (map V M).
  Proof.
    intros t s M V HE N H. apply (reg_predict_ok t (ll M) (map Ls M) s (inputs_ll M N) HE). rewrite Forall2_map_l, Forall2_map_r.
    clear N. induction M as [|row M IH]; constructor; [|apply IH; intros; apply H; right; auto].
    destruct (H row (or_introl eq_refl)) as [v F]. exists (V row :: v). rewrite fallx_dense. split; auto.
  Qed.

  Lemma fold_preds : forall {Y} (l : list Y) (M : list (list A)) (step : list A -> Y -> res (list A)) (V : Y -> list A -> A) (acc : list A -> A),
    (forall a y, In y l -> step a y = Ok (zip_with add a (map (V y) M))) ->
    foldM step l (map acc M) = Ok (map (fun row => fold_left add (map (fun y => V y row) l) (acc row)) M).
  Proof.
    intros Y l M step V acc H. revert acc; induction l as [|y l IH]; intro acc; cbn [foldM]; auto.
    rewrite H by (left; auto). cbn [bind].
    assert (Z : forall (f g : list A -> A), zip_with add (map f M) (map g M) = map (fun r => add (f r) (g r)) M).
    { intros f g. clear. induction M; simpl; auto. rewrite IHM. auto. }
    rewrite Z, IH by (intros; apply H; right; auto). auto.
  Qed.
  Lemma rep_map : forall (z : A) (M : list (list A)), rep z (length M) = map (fun _ => z) M.
  Proof. intros z M; induction M; simpl; auto. unfold rep in *. simpl. rewrite IHM. auto. Qed.
  Lemma len_ll : forall M : list (list A), len (ll M) = Ok (length M).
  Proof. intro M. unfold ll, len. cbn [items bind]. rewrite map_length. auto. Qed.

  (** [es[e]] holds [nc] trees; tree (e, k) adds V e k row. *)
  Lemma scores_many : forall (g : xgb A L) (M : list (list A)) (V : nat -> nat -> list A -> A) nc ne tss,
    xg_nclasses g = Z.of_nat nc -> xg_nest g = Z.of_nat ne -> xg_estimators g = map Many tss -> length tss = ne ->
    (forall e k, e < ne -> k < nc -> exists ts t, nth_error tss e = Some ts /\ nth_error ts k = Some t /\ reg_predict t (ll M) = Ok (map (V e k) M)) ->
    xgb_scores g (ll M) = Ok (map (fun k => map (fun row => fold_left add (map (fun e => V e k row) (seq 0 ne)) zero) M) (seq 0 nc)).
  Proof.
    intros g M V nc ne tss Hc He Es Ln H. unfold xgb_scores. rewrite Hc, zrange_nat, mapM_map. apply mapM_pure.
    intros k Hk. apply in_seq in Hk. rewrite len_ll. cbn [bind]. rewrite He, zrange_nat, rep_map.
    assert (FM : forall (f : list A -> Z -> res (list A)) l b, foldM f (map Z.of_nat l) b = foldM (fun b i => f b (Z.of_nat i)) l b).
    { intros f l. induction l; intro b; simpl; auto. destruct (f b _); simpl; auto. }
    rewrite FM. apply (fold_preds (seq 0 ne) M _ (fun e => V e k) (fun _ => zero)).
    intros a e Hin. apply in_seq in Hin. destruct (H e k) as (ts & t & H1 & H2 & H3); [lia|lia|].
    rewrite lget_nat. assert (Q : lnth (xg_estimators g) e = Ok (Many ts)) by (apply lnth_ok; rewrite Es, nth_error_map', H1; auto).
    rewrite Q. cbn [bind]. rewrite lget_nat. apply lnth_ok in H2. rewrite H2. cbn [bind]. rewrite H3. auto.
  Qed.

  Lemma scores_one : forall (g : xgb A L) (M : list (list A)) (V : nat -> list A -> A) ne ts,
    xg_estimators g = map One ts -> length ts = ne ->
    (forall e t, nth_error ts e = Some t -> reg_predict t (ll M) = Ok (map (V e) M)) ->
    xgb_binary_scores g (ll M) = Ok (map (fun row => fold_left add (map (fun e => V e row) (seq 0 ne)) zero) M).
  Proof.
    intros g M V ne ts Es Ln H. unfold xgb_binary_scores. rewrite len_ll, Es. cbn [bind]. rewrite rep_map.
    rewrite <- (foldM_range_nth (map One ts)). rewrite map_length, Ln. unfold range.
    apply (fold_preds (seq 0 ne) M _ V (fun _ => zero)). intros a e Hin. apply in_seq in Hin.
    destruct (nth_error ts e) as [t|] eqn:E; [|apply nth_error_None in E; lia].
    assert (Q : lnth (map One ts) e = Ok (One t)) by (apply lnth_ok; rewrite nth_error_map', E; auto).
    rewrite Q. cbn [bind]. rewrite (H e t E). auto.
  Qed.
End Scores.

(** Which tables the constructor reads. *)
Section Readable.
  Context {A : arith} {L : Type}.

  Lemma digit_ok : forall c, digit c <-> is_digit c = true.
  Proof. intro c. unfold digit, is_digit. rewrite andb_true_iff, !Z.leb_le. tauto. Qed.
  Lemma digits_ok : forall w, Forall digit w <-> digits w.
  Proof. intro w. unfold digits. rewrite !Forall_forall. split; intros H c Hc; apply digit_ok; auto. Qed.
  Lemma int_readable : forall w, (exists z, int_of_str w = Ok z) <-> w <> [] /\ Forall digit w.
  Proof.
    intro w. unfold int_of_str. split.
    - destruct w as [|c w]; [intros [z H]; discriminate|]. destruct (forallb is_digit (c :: w)) eqn:E; [|intros [z H]; discriminate]. intros _. split; [discriminate|].
      apply digits_ok, Forall_forall, forallb_forall. exact E.
    - intros [N D]. apply digits_ok in D. rewrite (digits_forallb w D). destruct w; [congruence|]. eauto.
  Qed.
  Lemma split_self : forall w, digits w -> str_split_on 45 w = [w].
  Proof.
    intros w H; induction H as [|c w Hc H IH]; auto. simpl. apply digit_ok in Hc. unfold digit in Hc. destruct (Z.eqb_spec c 45); [lia|]. rewrite IH. auto.
  Qed.
  Lemma split_shape : forall s, exists ws w, str_split_on 45 s = ws ++ [w] /\ ((ws = [] /\ s = w) \/ exists p, s = p ++ lit "-" ++ w).
  Proof.
    intro s; induction s as [|x s (ws & w & E & H)]; [exists [], []; auto|]. cbn [str_split_on]. rewrite E. destruct (Z.eqb_spec x 45) as [->|N].
    - exists ([] :: ws), w. split; [reflexivity|]. right. destruct H as [[_ ->]|[p ->]]; [exists []; reflexivity|exists (45%Z :: p); reflexivity].
    - destruct H as [[-> ->]|[p ->]].
      + exists [], (x :: w). auto.
      + destruct ws as [|v ws]; cbn [app].
        * exfalso. destruct (split_app 45 p w) as (a & b & Q). change (lit "-" ++ w) with (45%Z :: w) in E. rewrite Q in E. cbn [app] in E. destruct (str_split_on 45 w) eqn:Z0; [apply (split_ne 45 w Z0)|]. destruct b; discriminate.
        * exists ((x :: v) :: ws), w. split; [reflexivity|]. right. exists (x :: p). reflexivity.
  Qed.
  Lemma child_reads : forall c, (exists z, xgb_child c = Ok z) <-> child_readable c.
  Proof.
    intros [s|]; cbn [xgb_child child_readable]; [|split; eauto]. split.
    - destruct (split_shape s) as (ws & w & E & H). rewrite E, lget_neg1. cbn [bind]. intro I. apply int_readable in I. destruct I as [N D]. exists w. split; auto. split; auto. destruct H as [[_ H]|H]; auto.
    - intros (w & N & D & [->|[p ->]]).
      + rewrite split_self by (apply digits_ok; auto). change (lget [w] (-1)) with (Ok w). cbn [bind]. apply int_readable. auto.
      + destruct (split_last p w) as [ws ->]; [apply digits_ok; auto|]. rewrite lget_neg1. cbn [bind]. apply int_readable. auto.
  Qed.
  Lemma remove_shape : forall s, (str_remove 102 s = [] /\ Forall (fun x => x = 102%Z) s) \/
    exists p c q, s = p ++ c :: q /\ c <> 102%Z /\ Forall (fun x => x = 102%Z) q /\ exists r, str_remove 102 s = r ++ [c].
  Proof.
    intro s; induction s as [|x s IH]; [left; auto|]. cbn [str_remove filter]. fold (str_remove 102 s). destruct IH as [[E F]|(p & c & q & -> & N & F & r & E)].
    - destruct (Z.eqb_spec x 102) as [->|N]; cbn [negb]; [left; auto|]. right. exists [], x, s. split; auto. split; auto. split; auto. exists []. rewrite E. reflexivity.
    - right. exists (x :: p), c, q. split; auto. split; auto. split; auto. rewrite E. destruct (Z.eqb_spec x 102); cbn [negb]; [exists r; auto|exists (x :: r); auto].
  Qed.
  Lemma feature_reads : forall s, (exists z, xgb_feature s = Ok z) <-> feature_readable s.
  Proof.
    intro s. unfold xgb_feature, feature_readable. destruct (str_eqb s (lit "Leaf")) eqn:E; [apply str_eqb_ok in E; split; eauto|].
    assert (N : s <> lit "Leaf") by (intros ->; rewrite str_eqb_refl in E; discriminate).
    assert (F : forall x, x = 102%Z <-> [x] = lit "f") by (intro x; split; intro H; [subst; reflexivity|injection H; auto]).
    destruct (remove_shape s) as [[R Q]|(p & c & q & Es & Nc & Q & r & R)]; rewrite R.
    - split; [intros [z H]; discriminate|]. intros [H|(p & c & q & -> & D & _)]; [contradiction|]. exfalso. apply Forall_app in Q. destruct Q as [_ Q]. inversion Q; subst. unfold digit in D. lia.
    - rewrite lget_neg1. cbn [bind]. rewrite int_readable. split.
      + intros [_ D]. right. exists p, c, q. split; auto. split; [inversion D; auto|]. eapply Forall_impl; [|exact Q]. intros x H. apply F. exact H.
      + intros [H|(p' & c' & q' & Es' & D & Q')]; [contradiction|]. split; [discriminate|]. constructor; [|constructor].
        assert (X : c' = c); [|subst; auto]. rewrite Es in Es'. assert (Nc' : c' <> 102%Z) by (unfold digit in D; lia).
        assert (Q2 : Forall (fun x => x = 102%Z) q') by (eapply Forall_impl; [|exact Q']; intros x H; apply F; exact H).
        apply (f_equal (@rev Z)) in Es'. rewrite !rev_app_distr in Es'. cbn [rev] in Es'. rewrite <- !app_assoc in Es'. cbn [app] in Es'. apply Forall_rev in Q, Q2.
        revert Es'. generalize (rev q) Q (rev q') Q2. clear - Nc Nc'. intros u Hu. induction Hu as [|x u -> Hu IH]; intros v Hv E; inversion Hv as [|y v' Hy Hv']; subst; cbn [app] in E; injection E; intros; try congruence. apply (IH v'); auto.
  Qed.
  Lemma tree_reads : forall x : xgb_tree A, (exists t, tree_of_xgb (L:=L) x = Ok t) <-> readable x.
  Proof.
    assert (G : forall {T U} (f : T -> res U) l, (exists r, mapM f l = Ok r) <-> Forall (fun x => exists y, f x = Ok y) l).
    { intros T U f l. split.
      - intros [r H]. apply mapM_Forall2 in H. clear - H. induction H; constructor; eauto.
      - intro H. apply mapM_total. apply Forall_forall. exact H. }
    assert (Fi : forall {T} (P Q : T -> Prop), (forall x, P x <-> Q x) -> forall l, Forall P l <-> Forall Q l) by (intros T P Q H l; rewrite !Forall_forall; firstorder).
    intro x. unfold tree_of_xgb, readable.
    rewrite <- (Fi _ _ _ feature_reads), <- !(Fi _ _ _ child_reads), <- !G.
    destruct (mapM xgb_child (x_yes x)); cbn [bind]; [|split; [intros [? H]; discriminate|intros (_ & [? H] & _); discriminate]].
    destruct (mapM xgb_child (x_no x)); cbn [bind]; [|split; [intros [? H]; discriminate|intros (_ & _ & [? H]); discriminate]].
    destruct (mapM xgb_feature (x_feature x)); cbn [bind]; [|split; [intros [? H]; discriminate|intros ([? H] & _ & _); discriminate]]. split; [intros _; repeat split; eauto|eauto].
  Qed.
  Lemma rows_exist : forall i (df : list (df_row A)), exists rs, rows_of i df rs.
  Proof. intros i df. induction df as [|r df [rs IH]]; [exists []; constructor|]. destruct (Z.eq_dec (d_tree r) i); [exists (r :: rs); constructor; auto|exists rs; constructor 3; auto]. Qed.
  Lemma build_readable : forall (df : list (df_row A)) nc ne, (exists es, build_estimators (L:=L) df nc ne = Ok es) <->
    forall i rows, (0 <= i < Z.max 0 ne * (if Z.eq_dec nc 2 then 1 else Z.max 0 nc))%Z -> rows_of i df rows -> readable (dump_of rows).
  Proof.
    intros df nc ne.
    assert (T : forall i, (exists t, tree_of_xgb (L:=L) (df_tree df i) = Ok t) <-> forall rows, rows_of i df rows -> readable (dump_of rows)).
    { intro i. rewrite tree_reads. split; [intros H rows R; rewrite <- (df_tree_rows i df rows R); exact H|]. intro H. destruct (rows_exist i df) as [rs R]. rewrite (df_tree_rows i df rs R). auto. }
    assert (G : forall {U V} (f : U -> res V) l, (exists r, mapM f l = Ok r) <-> forall x, In x l -> exists y, f x = Ok y).
    { intros U V f l. split; [|apply mapM_total]. intros [r H] x Hx. apply mapM_Forall2 in H. clear - H Hx. induction H; [destruct Hx|]. destruct Hx as [->|Hx]; eauto. }
    destruct (Z.eq_dec nc 2) as [->|N2].
    - rewrite build_one, G. split.
      + intros H i rows Hi R. apply (proj1 (T i)); auto. destruct (H (Z.to_nat i)) as [y Ey]; [apply in_seq; lia|]. rewrite Z2Nat.id in Ey by lia. destruct (tree_of_xgb (df_tree df i)) eqn:E; [eauto|discriminate].
      + intros H e He. apply in_seq in He. destruct (proj2 (T (Z.of_nat e))) as [t Et]; [intros rows R; apply (H (Z.of_nat e)); auto; lia|]. rewrite Et. cbn [bind]. eauto.
    - assert (X : build_estimators (L:=L) df nc ne = build_estimators df (Z.max 0 nc) ne).
      { unfold build_estimators, build_row. destruct (Z.eqb_spec nc 2); [contradiction|]. destruct (Z.eqb_spec (Z.max 0 nc) 2); [lia|].
        replace (zrange 0 (Z.max 0 nc)) with (zrange 0 nc); [reflexivity|]. unfold zrange. do 2 f_equal. lia. }
      rewrite X, build_many by lia. rewrite G. split.
      + intros H i rows Hi R. apply (proj1 (T i)); auto. set (k := Z.max 0 nc) in *. assert (Hk : (0 < k)%Z) by nia.
        destruct (H (Z.to_nat (i / k))) as [y Ey].
        { apply in_seq. assert (i / k < Z.max 0 ne)%Z by (apply Z.div_lt_upper_bound; lia). assert (0 <= i / k)%Z by (apply Z.div_pos; lia). lia. }
        destruct (mapM (fun k0 => tree_of_xgb (L:=L) _) (seq 0 (Z.to_nat k))) as [ts|] eqn:E; [|discriminate].
        assert (B : exists r, mapM (fun k0 => tree_of_xgb (L:=L) (df_tree df (Z.of_nat (Z.to_nat (i / k)) * k + Z.of_nat k0))) (seq 0 (Z.to_nat k)) = Ok r) by eauto.
        rewrite G in B. destruct (B (Z.to_nat (i mod k))) as [t Et]; [apply in_seq; pose proof (Z.mod_pos_bound i k Hk); lia|]. exists t. rewrite <- Et. f_equal. f_equal.
        assert (0 <= i / k)%Z by (apply Z.div_pos; lia). pose proof (Z.mod_pos_bound i k Hk). rewrite !Z2Nat.id by lia. pose proof (Z.div_mod i k). lia.
      + intros H e He. apply in_seq in He. destruct (mapM_total (fun k => tree_of_xgb (L:=L) (df_tree df (Z.of_nat e * Z.max 0 nc + Z.of_nat k))) (seq 0 (Z.to_nat (Z.max 0 nc)))) as [ts E]; [|rewrite E; cbn [bind]; eauto].
        intros k Hk. apply in_seq in Hk. apply T. intros rows R. apply (H (Z.of_nat e * Z.max 0 nc + Z.of_nat k)%Z); auto. nia.
  Qed.
End Readable.
