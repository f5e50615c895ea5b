(** C82: the order of the words of a document, of the keys of a mapping and of
    the stored entries of a sparse row. *)
From Coq Require Import String Reals Lia Lra List Permutation.
From Flocq Require Import Core BinarySingleNaN.
From Verif Require Import Model.Py Model.Arith Model.F64 Model.Utils Model.Base Model.Tree Model.Ensemble Model.Linear Model.Hash Model.Text Model.DictVec.
From Verif Require Import Spec.Matrix Spec.Reals Spec.Linear Spec.Rounding Spec.Text Spec.Features Spec.Reorder.
From Verif Require Import Proofs.Lib Proofs.Laws Proofs.Arrays Proofs.Argmax Proofs.Ensemble Proofs.Linear Proofs.Text Proofs.Features Proofs.Reorder Proofs.AnyOrder.
From Verif Require Import Props.Linear Props.Text Props.Features Props.Accuracy.
Import ListNotations.
Local Open Scope nat_scope.

(** CountVectorizer (binary=False): documents with the same features, each as
    often, get rows that say the same about every column, in any arithmetic. *)
Theorem C82_count : forall (A : arith) (U : textlib) (v : countvec) an docs docs',
  build_analyzer U (cv_conf v) = Ok an -> cv_binary v = false -> docs <> [] -> Forall2 (reordered an) docs docs' ->
  exists rows rows', count_transform (A:=A) U v (RawDocs docs) = Ok (Sp rows (Some (Z.of_nat (length (cv_vocab v)))) (cv_dtype v)) /\
    count_transform (A:=A) U v (RawDocs docs') = Ok (Sp rows' (Some (Z.of_nat (length (cv_vocab v)))) (cv_dtype v)) /\
    Forall2 same_entries rows rows'.
Proof.
  intros A U v an docs docs' HA HB ND F.
  assert (Q : forall ds fss, ds <> [] -> Forall2 (fun d fs => an d = Ok fs) ds fss ->
    count_transform (A:=A) U v (RawDocs ds) = Ok (Sp (map (count_features (cv_vocab v)) fss) (Some (Z.of_nat (length (cv_vocab v)))) (cv_dtype v))).
  { intros ds fss N HF. unfold count_transform, count_vocab. rewrite HA. cbn [bind].
    assert (E : mapM (fun d => fs <- an d ;; Ok (count_features (A:=A) (cv_vocab v) fs)) ds = Ok (map (count_features (cv_vocab v)) fss)).
    { clear - HF. induction HF as [|d fs ds fss E F IH]; auto. cbn [mapM map]. rewrite E. cbn [bind]. rewrite IH. auto. }
    rewrite E. cbn [bind]. rewrite HB. destruct ds; [congruence|]. inversion HF; subst. reflexivity. }
  assert (X : exists fss fss', Forall2 (fun d fs => an d = Ok fs) docs fss /\ Forall2 (fun d fs => an d = Ok fs) docs' fss' /\ Forall2 (@Permutation pystr) fss fss').
  { clear - F. induction F as [|d d' docs docs' (fs & fs' & E & E' & P) F (fss & fss' & H1 & H2 & H3)]; [exists [], []; auto|]. exists (fs :: fss), (fs' :: fss'). auto. }
  destruct X as (fss & fss' & H1 & H2 & H3). exists (map (count_features (cv_vocab v)) fss), (map (count_features (cv_vocab v)) fss').
  split; [apply Q; auto|]. split; [apply Q; auto; destruct docs'; [inversion F; subst; congruence|discriminate]|].
  clear - H3. induction H3; cbn [map]; constructor; auto. apply count_same. auto.
Qed.
Print Assumptions C82_count.

(** DictVectorizer: mappings with the same items in any order, no two of which
    name the same feature, give the same rows (dense output: the same lists). *)
Theorem C82_mapping : forall (A : arith) (d : dictvec) (xs xs' : list (dict pystr (fval A))),
  vocabulary (dv_vocab d) -> dv_dtype d = DFloat -> xs <> [] ->
  Forall2 (fun x x' => Permutation x x' /\ NoDup (map fst (named (dv_sep d) x))) xs xs' ->
  match dv_sparse d with
  | true => exists rows rows', dv_transform d (Maps xs) = Ok (Sp rows (Some (Z.of_nat (length (dv_vocab d)))) DFloat) /\
      dv_transform d (Maps xs') = Ok (Sp rows' (Some (Z.of_nat (length (dv_vocab d)))) DFloat) /\ Forall2 same_entries rows rows'
  | false => dv_transform d (Maps xs) = dv_transform d (Maps xs')
  end.
Proof.
  intros A d xs xs' V HD N F. set (g := fun x : dict pystr (fval A) => dict_of Z.eqb (Features.cells (dv_vocab d) (named (dv_sep d) x))).
  assert (E : forall l, mapM (dv_row d) l = Ok (map g l)) by (intro l; apply mapM_pure; intros x _; apply dv_row_ok; auto).
  assert (S : Forall2 same_entries (map g xs) (map g xs')).
  { clear - F V. induction F as [|x x' xs xs' [P ND] F IH]; cbn [map]; constructor; auto. intro j. unfold g. rewrite !dict_of_last.
    destruct (in_dec Z.eq_dec j (map snd (dv_vocab d))) as [I|NI].
    - apply in_map_iff in I. destruct I as ([t j'] & <- & I). cbn [snd]. rewrite !(cells_last _ _ t j' V I). apply last_of_perm; auto. unfold named. apply Permutation_map. exact P.
    - assert (H : forall l, last_of Z.eq_dec j (Features.cells (A:=A) (dv_vocab d) l) = None).
      { intro l. destruct (last_of Z.eq_dec j _) eqn:Q; auto. apply last_of_in in Q. apply cells_col in Q. destruct Q as [t I]. exfalso. apply NI. apply (in_map snd) in I. exact I. }
      rewrite !H. reflexivity. }
  assert (N' : xs' <> []) by (clear - F N; intros ->; inversion F; subst; apply N; reflexivity).
  unfold dv_transform. rewrite !E. cbn [bind]. unfold sparse_list. destruct xs as [|x xs]; [destruct (N eq_refl)|]. destruct xs' as [|x' xs']; [destruct (N' eq_refl)|]. cbn [map]. cbn [bind].
  destruct (dv_sparse d).
  - exists (map g (x :: xs)), (map g (x' :: xs')). rewrite HD. auto.
  - change (g x :: map g xs) with (map g (x :: xs)). change (g x' :: map g xs') with (map g (x' :: xs')). cbn [todense]. rewrite HD. unfold dzero. rewrite !mapM_Ok. cbn [bind]. f_equal. f_equal.
    revert S. generalize (map g (x :: xs)) (map g (x' :: xs')). intros r r' S. induction S as [|a a' r r' H S IH]; [reflexivity|]. cbn [map]. f_equal; [|exact IH]. apply map_ext. intro i. apply get_same. exact H.
Qed.
Print Assumptions C82_mapping.

(** Two items that name the same feature: the last one counts. *)
Theorem C82_mapping_refuted : forall m : libm, let d := {| dv_vocab := [(lit "a=b", 0%Z)]; dv_sparse := true; dv_dtype := DFloat; dv_sep := lit "=" |} in
  let x := [(lit "a=b", FNum (ofZ 7 : F64 m)); (lit "a", FStr (lit "b"))] in
  vocabulary (dv_vocab d) /\ NoDup (map fst x) /\
  shown_sp (dv_transform d (Maps [x])) = Ok [[(0%Z, Ok 1%Z)]] /\ shown_sp (dv_transform d (Maps [rev x])) = Ok [[(0%Z, Ok 7%Z)]].
Proof.
  intros m d x. split; [|split; [|split; vm_compute; reflexivity]].
  - split; [repeat constructor; cbn; intuition discriminate|]. split; [repeat constructor; cbn; intuition discriminate|]. intros t j [E|[]]; injection E as <- <-; cbn; lia.
  - repeat constructor; cbn; intuition discriminate.
Qed.
Print Assumptions C82_mapping_refuted.

(** HashingVectorizer: two tokens with one column, the last one counts. *)
Theorem C82_hashing_refuted : forall m : libm,
  let v := {| hv_conf := ex_conf "word" 1 1 SWNone; hv_nfeat := 1; hv_binary := false; hv_norm := None; hv_alt := true; hv_dtype := DFloat |} in
  (exists an, build_analyzer ex_lib (hv_conf v) = Ok an /\ reordered an (DocStr (lit "dog cat")) (DocStr (lit "cat dog"))) /\
  shown_sp (hashvec_transform (A:=F64 m) ex_lib v (RawDocs [DocStr (lit "dog cat")])) = Ok [[(0%Z, Ok 1%Z)]] /\
  shown_sp (hashvec_transform (A:=F64 m) ex_lib v (RawDocs [DocStr (lit "cat dog")])) = Ok [[(0%Z, Ok (-1)%Z)]].
Proof.
  intros m v. split; [|split; vm_compute; reflexivity]. destruct (build_analyzer ex_lib (hv_conf v)) as [an|] eqn:E; [|vm_compute in E; discriminate]. exists an. split; auto.
  exists [lit "dog"; lit "cat"], [lit "cat"; lit "dog"]. unfold build_analyzer in E. vm_compute in E. injection E as <-. split; [vm_compute; reflexivity|]. split; [vm_compute; reflexivity|]. apply perm_swap.
Qed.
Print Assumptions C82_hashing_refuted.

(** Trees and forests of trees see only what a row says about each column. *)
Theorem C82_trees : forall (A : arith) (L : Type) (rows rows' : list (dict Z A)) sz dt, Forall2 same_entries rows rows' ->
  (forall t : tree A L, tree_predict t (Sp rows sz dt) = tree_predict t (Sp rows' sz dt) /\
     tree_predict_proba t (Sp rows sz dt) = tree_predict_proba t (Sp rows' sz dt) /\
     tree_predict_log_proba t (Sp rows sz dt) = tree_predict_log_proba t (Sp rows' sz dt) /\
     reg_predict t (Sp rows sz dt) = reg_predict t (Sp rows' sz dt)) /\
  (forall (b : bagging A L) (ts : list (tree A L)), b_feats b = None -> b_members b = map tree_predict_proba ts ->
     bagging_predict b (Sp rows sz dt) = bagging_predict b (Sp rows' sz dt) /\
     bagging_predict_proba b (Sp rows sz dt) = bagging_predict_proba b (Sp rows' sz dt) /\
     bagging_predict_log_proba b (Sp rows sz dt) = bagging_predict_log_proba b (Sp rows' sz dt)).
Proof.
  intros A L rows rows' sz dt S. assert (HT : forall t : tree A L, tree_predict_proba t (Sp rows sz dt) = tree_predict_proba t (Sp rows' sz dt)) by (intro t; unfold tree_predict_proba; rewrite (leaves_same t rows rows' sz dt S); reflexivity).
  split.
  - intro t. unfold tree_predict, tree_predict_log_proba, reg_predict. rewrite HT, (leaves_same t rows rows' sz dt S). auto.
  - intros b ts HF HM.
    assert (E : forall i, member_proba b (Sp rows sz dt) i = member_proba b (Sp rows' sz dt) i).
    { intro i. unfold member_proba, get_feats. rewrite HF, HM. unfold lnth. rewrite nth_error_map. destruct (nth_error ts i); [|reflexivity]. cbn [option_map bind feat_slice]. apply HT. }
    assert (P : bagging_predict_proba b (Sp rows sz dt) = bagging_predict_proba b (Sp rows' sz dt)).
    { unfold bagging_predict_proba. rewrite E. destruct (member_proba b (Sp rows' sz dt) 0) as [p0|]; [|reflexivity]. cbn [bind].
      assert (G : forall l acc, foldM (fun acc idx => pi <- member_proba b (Sp rows sz dt) idx ;; operate_2d (ll acc) (ll pi) add) l acc = foldM (fun acc idx => pi <- member_proba b (Sp rows' sz dt) idx ;; operate_2d (ll acc) (ll pi) add) l acc).
      { induction l as [|i l IH]; intro acc; [reflexivity|]. cbn [foldM]. rewrite E. destruct (_ <- member_proba b (Sp rows' sz dt) i ;; _); [|reflexivity]. cbn [bind]. apply IH. }
      rewrite G. reflexivity. }
    unfold bagging_predict, bagging_predict_log_proba. rewrite P. auto.
Qed.
Print Assumptions C82_trees.
(** So a tree or a forest on word counts gives documents with the same words
    the same answers. *)
Theorem C82_text_trees : forall (A : arith) (L : Type) (U : textlib) (v : countvec) an docs docs' (b : bagging A L) (ts : list (tree A L)),
  build_analyzer U (cv_conf v) = Ok an -> cv_binary v = false -> docs <> [] -> Forall2 (reordered an) docs docs' ->
  b_feats b = None -> b_members b = map tree_predict_proba ts ->
  (X <- count_transform U v (RawDocs docs) ;; bagging_predict_proba b X) = (X <- count_transform U v (RawDocs docs') ;; bagging_predict_proba b X) /\
  (X <- count_transform U v (RawDocs docs) ;; bagging_predict b X) = (X <- count_transform U v (RawDocs docs') ;; bagging_predict b X).
Proof.
  intros A L U v an docs docs' b ts HA HB ND F HF HM. destruct (C82_count A U v an docs docs' HA HB ND F) as (rows & rows' & -> & -> & S). cbn [bind].
  destruct (proj2 (C82_trees A L rows rows' (Some (Z.of_nat (length (cv_vocab v)))) (cv_dtype v) S) b ts HF HM) as (H1 & H2 & _). auto.
Qed.
Print Assumptions C82_text_trees.

(** A linear model adds the terms of a sparse row in the order of its entries;
    on doubles the label can depend on it: the same three words, each once. *)
Definition big_lin {m : libm} : linear (F64 m) nat :=
  {| l_classes := [5; 6]; l_coef := [[ofZ (2 ^ 60); ofZ 1; ofZ (- 2 ^ 60)]]; l_intercept := Some [ofZ 0]; l_multi := None; l_solver := None; l_loss := None |}.
Definition abc : countvec := {| cv_conf := ex_conf "word" 1 1 SWNone; cv_vocab := [(lit "aa", 0%Z); (lit "bb", 1%Z); (lit "cc", 2%Z)]; cv_binary := false; cv_dtype := DInt |}.
Theorem C82_linear_refuted : forall m : libm,
  (exists an, build_analyzer ex_lib (cv_conf abc) = Ok an /\ reordered an (DocStr (lit "aa bb cc")) (DocStr (lit "aa cc bb"))) /\
  (X <- count_transform (A:=F64 m) ex_lib abc (RawDocs [DocStr (lit "aa bb cc")]) ;; linear_predict big_lin X) = Ok [5] /\
  (X <- count_transform (A:=F64 m) ex_lib abc (RawDocs [DocStr (lit "aa cc bb")]) ;; linear_predict big_lin X) = Ok [6].
Proof.
  intro m. split; [|split; vm_compute; reflexivity]. destruct (build_analyzer ex_lib (cv_conf abc)) as [an|] eqn:E; [|vm_compute in E; discriminate]. exists an. split; auto.
  exists [lit "aa"; lit "bb"; lit "cc"], [lit "aa"; lit "cc"; lit "bb"]. vm_compute in E. injection E as <-. split; [vm_compute; reflexivity|]. split; [vm_compute; reflexivity|]. apply perm_skip, perm_swap.
Qed.
Print Assumptions C82_linear_refuted.

(** But whatever the order, every score is the exact one up to the rounding
    error of the dense computation (C18_error_float). *)
Theorem C82_linear_close : forall (m : libm) (L : Type) (c : linear (F64 m) L) d K b rows (M : list (list (F64 m))) r dt,
  fitted_linear c d K b -> rect M r d -> 1 <= r -> Forall2 stores rows M -> Forall (well_sized (l_coef c) b) M ->
  exists S s, decision_function c (Sp rows (Some (Z.of_nat d)) dt) = Ok s /\ scores_are K S s /\
    Forall2 (fun row scores => length scores = K /\ forall k w bk, nth_error (l_coef c) k = Some w -> nth_error b k = Some bk ->
      exists v, nth_error scores k = Some v /\ approximates_score row w bk v) M S.
Proof.
  intros m L c d K b rows M r dt (RC & HK & HI & Lb) RM Hr HS MD. pose proof RC as [LC WC]. destruct RM as [LM RM].
  assert (X : exists S, mapM (row_scores c) (map Di rows) = Ok S /\ Forall2 (fun row scores => length scores = K /\ forall k w bk, nth_error (l_coef c) k = Some w -> nth_error b k = Some bk ->
      exists v, nth_error scores k = Some v /\ approximates_score row w bk v) M S).
  { clear LM Hr. induction HS as [|x row rows M St HS IH]; [exists []; split; [reflexivity|constructor]|]. pose proof (Forall_inv RM) as R1. pose proof (Forall_inv_tail RM) as R2. pose proof (Forall_inv MD) as M1. pose proof (Forall_inv_tail MD) as M2. destruct (IH R2 M2) as (S & E & FS).
    destruct (any_score m (l_coef c) b x row St) as (ts & E1 & L1 & Q); [rewrite R1; exact WC|exact (eq_trans Lb (eq_sym LC))|exact M1|]. exists (zip_with add ts b :: S). split.
    - cbn [map mapM]. unfold row_scores at 1. rewrite E1. cbn [bind]. rewrite HI. cbn [getattr bind]. rewrite E. reflexivity.
    - constructor; auto. split; [rewrite zip_with_length, L1, Lb, LC; lia|exact Q]. }
  destruct X as (S & E & FS). exists S. unfold decision_function.
  destruct rows as [|d0 rows0]; [apply Forall2_len in HS; rewrite LM in HS; cbn in HS; lia|]. set (rs := d0 :: rows0) in *.
  change (check_array (Sp rs (Some (Z.of_nat d)) dt) HAllow) with (Ok (Sp rs (Some (Z.of_nat d)) dt)).
  cbn [bind]. unfold shape1 at 1 2. rewrite (shape_ll' _ _ _ RC HK). cbn [bind].
  assert (SS : shape (Sp rs (Some (Z.of_nat d)) dt) = Ok (S2 (Z.of_nat (length rs)) (Some (Z.of_nat d)))).
  { unfold shape. cbn [items bind]. unfold rs. cbn [map]. cbn [length]. rewrite map_length. auto. }
  rewrite SS. cbn [bind]. rewrite Z.eqb_refl. cbn [guard bind items].
  destruct (scores_flat (map Di rs) S c K HK ltac:(discriminate) E) as (s & Es & SA).
  - clear - FS. induction FS as [|? ? ? ? [H _] FS IH]; constructor; auto.
  - exists s. auto.
Qed.
Print Assumptions C82_linear_close.
(** Hence predictions agree, with each other and with the dense and the exact
    ones, whenever one class wins by more than the rounding errors. *)
Theorem C82_linear_label : forall (m : libm) (L : Type) (c : linear (F64 m) L) d K b rows (M : list (list (F64 m))) r dt,
  fitted_linear c d K b -> rect M r d -> 1 <= r -> K <> 1 -> length (l_classes c) = K -> Forall2 stores rows M -> Forall (well_sized (l_coef c) b) M ->
  exists out, linear_predict c (Sp rows (Some (Z.of_nat d)) dt) = Ok out /\
    Forall2 (fun row y => forall k, clear_winner (l_coef c) b row k -> nth_error (l_classes c) k = Some y) M out.
Proof.
  intros m L c d K b rows M r dt F RM Hr NK LK HS MD. destruct (C82_linear_close m L c d K b rows M r dt F RM Hr HS MD) as (S & s & E & SA & FS).
  destruct SA as [[_ ->]|[-> _]]; [|contradiction]. destruct F as ([LC _] & HK & _ & LB).
  assert (X : exists out, Forall2 (fun s y => exists k, best s k /\ nth_error (l_classes c) k = Some y) S out).
  { clear - FS HK LK. induction FS as [|row sc M S [H _] FS (out & IH)]; [exists []; constructor|].
    destruct (argmax_total (F64_ord m) sc) as [k Ek]; [destruct sc; [cbn in H; lia|discriminate]|]. apply (argmax_iff (F64_ord m)) in Ek. pose proof (best_lt _ _ Ek) as Q.
    destruct (nth_error (l_classes c) k) as [y|] eqn:Ey; [|apply nth_error_None in Ey; change (num (F64 m)) with f64 in *; lia]. exists (y :: out). constructor; auto. exists k. auto. }
  destruct X as [out X]. exists out. split; [apply (C19_multi m L c _ S E); exact X|].
  clear - FS X LC LB. revert out X. induction FS as [|row sc M S [H Q] FS IH]; intros out X; inversion X as [|? y ? out' (k' & B & HY) X']; subst; constructor; auto.
  intros k W. rewrite <- (near_winner m (l_coef c) b row sc k k'); auto; congruence.
Qed.
Print Assumptions C82_linear_label.
Theorem C82_linear_label2 : forall (m : libm) (L : Type) (c : linear (F64 m) L) d w bk rows (M : list (list (F64 m))) r dt c0 c1,
  fitted_linear c d 1 [bk] -> l_coef c = [w] -> l_classes c = [c0; c1] -> rect M r d -> 1 <= r -> Forall2 stores rows M -> Forall (well_sized [w] [bk]) M ->
  exists out, linear_predict c (Sp rows (Some (Z.of_nat d)) dt) = Ok out /\
    Forall2 (fun row y => ((score_error row w bk < exact_score row w bk)%R -> y = c1) /\ ((exact_score row w bk < - score_error row w bk)%R -> y = c0)) M out.
Proof.
  intros m L c d w bk rows M r dt c0 c1 F HW HC RM Hr HS MD. destruct (C82_linear_close m L c d 1 [bk] rows M r dt F RM Hr HS) as (S & s & E & SA & FS); [rewrite HW; exact MD|].
  destruct SA as [[N _]|[_ (l & -> & ->)]]; [contradiction|].
  exists (map (fun x => if ltb zero x then c1 else c0) l). split.
  - apply (C19_binary m L c _ l E). apply Forall2_map_r, Forall2_diag. intros x _. rewrite HC. destruct (ltb zero x); auto.
  - rewrite HW in FS. clear - FS. revert M FS. induction l as [|x l IH]; intros M FS; inversion FS as [|row ? M' ? [_ CL] FS']; subst; cbn [map]; constructor; auto.
    destruct (CL 0 w bk eq_refl eq_refl) as (v & Hv & Fv & Ev). injection Hv as <-. apply Rabs_le_inv in Ev. assert (Z0 : real (f_ofZE 0 0) = 0%R) by reflexivity.
    split; intro B.
    + destruct (fin_lt (f_ofZE 0 0) x eq_refl Fv) as [G _]; [rewrite Z0; lra|]. change (ltb zero x) with (f_ltb (f_ofZE 0 0) x). rewrite G. reflexivity.
    + destruct (fin_lt x (f_ofZE 0 0) Fv eq_refl) as (_ & G & _); [rewrite Z0; lra|]. change (ltb zero x) with (f_ltb (f_ofZE 0 0) x). rewrite G. reflexivity.
Qed.
Print Assumptions C82_linear_label2.

(** A document and a reordering of it; a row stored backwards. *)
Example C82_ex : forall m : libm, exists an, build_analyzer ex_lib (cv_conf abc) = Ok an /\
  reordered an (DocStr (lit "cc aa cc")) (DocStr (lit "cc cc aa")) /\
  shown_sp (count_transform (A:=F64 m) ex_lib abc (RawDocs [DocStr (lit "cc aa cc")])) = Ok [[(2, Ok 2); (0, Ok 1)]]%Z /\
  shown_sp (count_transform (A:=F64 m) ex_lib abc (RawDocs [DocStr (lit "aa cc cc")])) = Ok [[(0, Ok 1); (2, Ok 2)]]%Z.
Proof.
  intro m. destruct (build_analyzer ex_lib (cv_conf abc)) as [an|] eqn:E; [|vm_compute in E; discriminate]. exists an. split; auto. split; [|split; vm_compute; reflexivity].
  exists [lit "cc"; lit "aa"; lit "cc"], [lit "cc"; lit "cc"; lit "aa"]. vm_compute in E. injection E as <-. split; [vm_compute; reflexivity|]. split; [vm_compute; reflexivity|]. apply perm_skip, perm_swap.
Qed.
Example C82_ex_linear : forall m : libm, let b := [ofZ 0; ofZ 1; ofZ 2 : F64 m] in let row := [ofZ 4; ofZ 5 : F64 m] in
  stores [(1%Z, ofZ 5 : F64 m); (0%Z, ofZ 4)] row /\ fitted_linear (@ex_lin m) 2 3 b /\ well_sized (l_coef (@ex_lin m)) b row /\ clear_winner (l_coef (@ex_lin m)) b row 0.
Proof.
  intros m b row. split; [|apply (C19_margin_ex m)]. split; [repeat constructor; cbn; intuition discriminate|]. split; [cbn; intros k [<-|[<-|[]]]; lia|].
  intros j x Hj. destruct j as [|[|j]]; cbn [row nth_error] in Hj; [injection Hj as <-; left; exists (ofZ 4); split; [cbn; auto|reflexivity]|injection Hj as <-; left; exists (ofZ 5); split; [cbn; auto|reflexivity]|destruct j; discriminate].
Qed.
Example C82_ex_mapping : forall m : libm, NoDup (map fst (named (lit "=") [(lit "city", FStr (lit "Oslo")); (lit "age", FNum (ofZ 7 : F64 m))])).
Proof. intro m. repeat constructor; cbn; intuition discriminate. Qed.
