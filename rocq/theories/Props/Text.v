(** C39-C44: text analysis, counting and tf-idf. *)
From Coq Require Import String Reals Lia Lra Sorted.
From Flocq Require Import Core BinarySingleNaN.
From Verif Require Import Model.Py Model.Arith Model.F64 Model.XR Model.Utils Model.Base Model.Preprocessing Model.Hash Model.Text.
From Verif Require Import Spec.Matrix Spec.Text Spec.TextTools Spec.Scaling.
From Verif Require Import Proofs.Lib Proofs.Laws Proofs.Round Proofs.Arrays Proofs.Encode Proofs.Scaling Proofs.Text.
From Verif Require Import Props.Scaling.
Local Open Scope nat_scope.

Lemma prepared_ok : forall U c s p, prepared U c s p -> exists accent, accent_fun U c = Ok accent /\ preprocess U c accent s = p.
Proof.
  intros U c s p H. unfold prepared in H. unfold accent_fun, preprocess. destruct (tc_strip c) as [k|]; [|eexists; split; [reflexivity|auto]].
  destruct H as [[-> ->]|[-> H]].
  - eexists. split; [reflexivity|]. reflexivity.
  - eexists. split; [reflexivity|]. unfold strip_accents_unicode. set (l := if tc_lower c then _ else _) in *. destruct H as [[F ->]|[F ->]].
    + replace (forallb (fun ch => (ch <? 128)%Z) l) with true; auto. symmetry. apply forallb_forall. rewrite Forall_forall in F. intros x Hx. apply Z.ltb_lt. auto.
    + destruct (forallb (fun ch => (ch <? 128)%Z) l) eqn:E; auto. exfalso. apply F. rewrite forallb_forall in E. apply Forall_forall. intros x Hx. apply Z.ltb_lt. auto.
Qed.

(** C39.  Word analyzer: on the tokens found in the prepared text, the features
    are exactly the windows of lo to hi non-stop tokens, shortest first, then
    by position, joined by single spaces. *)
Theorem C39_word : forall (U : textlib) (c : textconf) an s p toks toks',
  tc_analyzer c = lit "word" -> (1 <= tc_lo c <= tc_hi c)%Z -> build_analyzer U c = Ok an ->
  prepared U c s p -> x_findall U (tc_pattern c) p = Ok toks ->
  match tc_stop c with SWList st => unstopped st toks toks' | _ => toks' = toks end ->
  an (DocStr s) = Ok (map joined (grams (Z.to_nat (tc_lo c)) (Z.to_nat (tc_hi c)) toks')).
Proof.
  intros U c an s p toks toks' HA HR HB HP HT HS. destruct (prepared_ok U c s p HP) as (accent & EA & EP).
  unfold build_analyzer in HB. rewrite EA in HB. cbn [bind] in HB. rewrite HA in HB.
  change (str_eqb (lit "word") (lit "char")) with false in HB. change (str_eqb (lit "word") (lit "char_wb")) with false in HB. change (str_eqb (lit "word") (lit "word")) with true in HB. cbv iota in HB.
  inv_bind HB. injection HB as <-. cbn [decode bind]. rewrite EP, HT. cbn [bind]. f_equal. apply word_ngrams_ok; auto.
  destruct (tc_stop c) as [| |st]; try discriminate; injection E as <-; auto.
Qed.
Print Assumptions C39_word.

(** The analyzer exists whenever stop_words is a list or None (a string raises
    ValueError). *)
Theorem C39_built : forall (U : textlib) (c : textconf), tc_analyzer c = lit "word" ->
  tc_strip c = None \/ tc_strip c = Some (lit "ascii") \/ tc_strip c = Some (lit "unicode") ->
  match tc_stop c with SWStr _ => build_analyzer U c = Err ValueError | _ => exists an, build_analyzer U c = Ok an end.
Proof.
  intros U c HA HS. unfold build_analyzer. assert (E : exists acc, accent_fun U c = Ok acc) by (unfold accent_fun; destruct HS as [->|[->| ->]]; eexists; reflexivity).
  destruct E as [acc ->]. cbn [bind]. rewrite HA. change (str_eqb (lit "word") (lit "char")) with false. change (str_eqb (lit "word") (lit "char_wb")) with false. change (str_eqb (lit "word") (lit "word")) with true. cbv iota.
  destruct (tc_stop c); [eexists; reflexivity|reflexivity|eexists; reflexivity].
Qed.
Print Assumptions C39_built.

(** A textlib for the examples: ASCII case, white space, words of letters. *)
Definition ex_lib : textlib := {|
  x_lower := map (fun c => if ((65 <=? c) && (c <=? 90))%Z then (c + 32)%Z else c);
  x_nfkd := fun s => s; x_combining := fun _ => false;
  x_space := fun c => (c =? 32)%Z || ((9 <=? c) && (c <=? 13))%Z;
  x_findall := fun _ s => Ok (str_split {| x_lower := fun s => s; x_nfkd := fun s => s; x_combining := fun _ => false;
                                 x_space := fun c => (c =? 32)%Z; x_findall := fun _ _ => Ok []; x_decode := fun _ _ b => Ok b |} s);
  x_decode := fun _ _ b => Ok b |}.
Definition ex_conf (analyzer : string) (lo hi : Z) (st : stops) : textconf :=
  {| tc_analyzer := lit analyzer; tc_strip := None; tc_lower := true; tc_stop := st; tc_pattern := lit "w+";
     tc_lo := lo; tc_hi := hi; tc_encoding := lit "utf-8"; tc_errors := lit "strict" |}.
Example C39_ex : (an <- build_analyzer ex_lib (ex_conf "word" 1 2 (SWList [lit "the"])) ;; an (DocStr (lit "The cat the Dog"))) =
  Ok [lit "cat"; lit "dog"; lit "cat dog"].
Proof. vm_compute. reflexivity. Qed.
Example C39_ex_stop : unstopped [lit "the"] [lit "the"; lit "cat"; lit "the"; lit "dog"] [lit "cat"; lit "dog"].
Proof. apply unstopped_filter. vm_compute. reflexivity. Qed.

(** C40.  Character analyzers.  Every text has exactly one collapsed form and
    one list of words, so the two theorems below determine the result. *)
Theorem C40_char : forall (U : textlib) (c : textconf) an s p t,
  tc_analyzer c = lit "char" -> (1 <= tc_lo c <= tc_hi c)%Z -> build_analyzer U c = Ok an ->
  prepared U c s p -> collapsed (x_space U) p t ->
  an (DocStr s) = Ok (grams (Z.to_nat (tc_lo c)) (Z.to_nat (tc_hi c)) t).
Proof.
  intros U c an s p t HA HR HB HP HC. destruct (prepared_ok U c s p HP) as (accent & EA & EP).
  unfold build_analyzer in HB. rewrite EA in HB. cbn [bind] in HB. rewrite HA in HB.
  change (str_eqb (lit "char") (lit "char")) with true in HB. cbv iota in HB. injection HB as <-. cbn [decode bind]. rewrite EP. f_equal. apply char_ngrams_ok; auto.
Qed.
Print Assumptions C40_char.
Theorem C40_char_wb : forall (U : textlib) (c : textconf) an s p t ws,
  tc_analyzer c = lit "char_wb" -> (1 <= tc_lo c <= tc_hi c)%Z -> build_analyzer U c = Ok an ->
  prepared U c s p -> collapsed (x_space U) p t -> words (x_space U) t ws ->
  an (DocStr s) = Ok (concat (map (padded_grams (Z.to_nat (tc_lo c)) (Z.to_nat (tc_hi c))) ws)).
Proof.
  intros U c an s p t ws HA HR HB HP HC HW. destruct (prepared_ok U c s p HP) as (accent & EA & EP).
  unfold build_analyzer in HB. rewrite EA in HB. cbn [bind] in HB. rewrite HA in HB.
  change (str_eqb (lit "char_wb") (lit "char")) with false in HB. change (str_eqb (lit "char_wb") (lit "char_wb")) with true in HB. cbv iota in HB. injection HB as <-. cbn [decode bind]. rewrite EP. f_equal. eapply char_wb_ok; eauto.
Qed.
Print Assumptions C40_char_wb.
Theorem C40_forms : forall (space : Z -> bool) (s : pystr),
  (exists t, collapsed space s t /\ forall t', collapsed space s t' -> t' = t) /\
  (exists ws, words space s ws /\ forall ws', words space s ws' -> ws' = ws).
Proof.
  intros space s. set (U := {| x_lower := fun s => s; x_nfkd := fun s => s; x_combining := fun _ => false; x_space := space; x_findall := fun _ _ => Ok []; x_decode := fun _ _ b => Ok b |}).
  split.
  - exists (white_spaces_sub U s). split; [apply (ws_ok U (length s) s); auto|]. intros t' H. apply (collapsed_fun U); auto.
  - exists (str_split U s). split; [apply (words_split U (length s) s); auto|]. intros ws' H. apply (words_fun U); auto.
Qed.
Print Assumptions C40_forms.
Example C40_ex :
  (an <- build_analyzer ex_lib (ex_conf "char" 2 3 SWNone) ;; an (DocStr (lit "ab  c"))) =
    Ok [lit "ab"; lit "b "; lit " c"; lit "ab "; lit "b c"] /\
  (an <- build_analyzer ex_lib (ex_conf "char_wb" 3 4 SWNone) ;; an (DocStr (lit "ab   c"))) =
    Ok [lit " ab"; lit "ab "; lit " ab "; lit " c "] /\
  (an <- build_analyzer ex_lib (ex_conf "char_wb" 5 6 SWNone) ;; an (DocStr (lit "ab"))) = Ok [lit " ab "].
Proof. vm_compute. auto. Qed.

(** C41.  Counting, binary=False: the result is a sparse matrix of the width of
    the vocabulary; in the row of a document the column of a term holds the
    number of times the term occurs among the document's features, and nothing
    is stored outside the vocabulary. *)
Theorem C41_counts : forall (m : libm) (U : textlib) (v : countvec) an docs fss,
  vocabulary (cv_vocab v) -> cv_binary v = false -> docs <> [] ->
  build_analyzer U (cv_conf v) = Ok an -> Forall2 (fun d fs => an d = Ok fs) docs fss ->
  Forall (fun fs => (Z.of_nat (length fs) <= 2 ^ 53)%Z) fss ->
  exists rows, count_transform (A:=F64 m) U v (RawDocs docs) = Ok (Sp rows (Some (Z.of_nat (length (cv_vocab v)))) (cv_dtype v)) /\
    Forall2 (fun fs r => term_row (cv_vocab v) (fun t => ofnat (occurrences t fs)) r) fss rows.
Proof.
  intros m U v an docs fss V HB ND HA HF HL. exists (map (count_features (cv_vocab v)) fss).
  assert (E : mapM (fun d => fs <- an d ;; Ok (count_features (A:=F64 m) (cv_vocab v) fs)) docs = Ok (map (count_features (cv_vocab v)) fss)).
  { clear - HF. induction HF as [|d fs docs fss E F IH]; auto. cbn [mapM map]. rewrite E. cbn [bind]. rewrite IH. auto. }
  split.
  - unfold count_transform, count_vocab. rewrite HA. cbn [bind]. rewrite E. cbn [bind]. rewrite HB.
    destruct docs; [congruence|]. inversion HF; subst. reflexivity.
  - apply Forall2_map_r, Forall2_diag. intros fs Hfs. rewrite Forall_forall in HL. specialize (HL fs Hfs).
    apply (count_term_row (A:=F64 m) (cv_vocab v) fs ofnat V); [|reflexivity]. intros t _. apply ones_F64. pose proof (occ_le t fs). lia.
Qed.
Print Assumptions C41_counts.

(** A document whose analysis fails makes the call fail with the same error. *)
Theorem C41_bad_document : forall (m : libm) (U : textlib) (v : countvec) an pre d post fss e,
  build_analyzer U (cv_conf v) = Ok an -> Forall2 (fun d fs => an d = Ok fs) pre fss -> an d = Err e ->
  count_transform (A:=F64 m) U v (RawDocs (pre ++ d :: post)) = Err e.
Proof.
  intros m U v an pre d post fss e HA HF HE. unfold count_transform, count_vocab. rewrite HA. cbn [bind].
  assert (E : mapM (fun d => fs <- an d ;; Ok (count_features (A:=F64 m) (cv_vocab v) fs)) (pre ++ d :: post) = Err e).
  { clear HA. induction HF as [|x fs pre fss Q F IH]; cbn [app mapM]; [rewrite HE; auto|]. rewrite Q. cbn [bind]. rewrite IH. auto. }
  rewrite E. auto.
Qed.
Print Assumptions C41_bad_document.

(** A bare string is refused. *)
Theorem C41_string : forall (m : libm) (U : textlib) (v : countvec) s, count_transform (A:=F64 m) U v (RawStr s) = Err ValueError.
Proof. reflexivity. Qed.
Print Assumptions C41_string.

(** binary=True: the claim about the type of the result is false, whatever the
    documents: never a sparse matrix, but a plain list of dicts. *)
Theorem C41_binary_refuted : forall (m : libm) (U : textlib) (v : countvec) docs rows sz dt,
  cv_binary v = true -> count_transform (A:=F64 m) U v (RawDocs docs) <> Ok (Sp rows sz dt).
Proof.
  intros m U v docs rows sz dt HB H. unfold count_transform in H. rewrite HB in H. inv_bind H. unfold binarize in H. inv_bind H. inv_bind H. discriminate.
Qed.
Print Assumptions C41_binary_refuted.
(** The cells of those dicts are right: 1 for the terms that occur. *)
Theorem C41_binary_partial : forall (m : libm) (U : textlib) (v : countvec) an docs fss,
  vocabulary (cv_vocab v) -> cv_binary v = true -> docs <> [] ->
  build_analyzer U (cv_conf v) = Ok an -> Forall2 (fun d fs => an d = Ok fs) docs fss ->
  exists rows, count_transform (A:=F64 m) U v (RawDocs docs) = Ok (Arr (map Di rows)) /\
    Forall2 (fun fs r => term_row (cv_vocab v) (fun t => match occurrences t fs with 0 => zero | _ => one end) r) fss rows.
Proof.
  intros m U v an docs fss V HB ND HA HF. exists (map (fun fs => map (fun kv => (fst kv, one)) (count_features (A:=F64 m) (cv_vocab v) fs)) fss).
  assert (E : mapM (fun d => fs <- an d ;; Ok (count_features (A:=F64 m) (cv_vocab v) fs)) docs = Ok (map (count_features (cv_vocab v)) fss)).
  { clear - HF. induction HF as [|d fs docs fss E F IH]; auto. cbn [mapM map]. rewrite E. cbn [bind]. rewrite IH. auto. }
  split.
  - unfold count_transform, count_vocab. rewrite HA. cbn [bind]. rewrite E. cbn [bind]. rewrite HB.
    destruct docs; [congruence|]. inversion HF as [|? f0 ? fs0]; subst. cbn [map sparse_list bind]. change (count_features (A:=F64 m) (cv_vocab v) f0 :: map (count_features (cv_vocab v)) fs0) with (map (count_features (A:=F64 m) (cv_vocab v)) (f0 :: fs0)).
    unfold binarize. cbn [items bind]. rewrite mapM_map. rewrite mapM_map. rewrite mapM_Ok. cbn [bind]. rewrite map_map. reflexivity.
  - apply Forall2_map_r, Forall2_diag. intros fs _. apply (binary_term_row (A:=F64 m)); auto. reflexivity.
Qed.
Print Assumptions C41_binary_partial.

Definition ex_vec (b : bool) : countvec := {| cv_conf := ex_conf "word" 1 1 SWNone; cv_vocab := [(lit "dog", 1%Z); (lit "cat", 0%Z)]; cv_binary := b; cv_dtype := DFloat |}.
Example C41_ex : vocabulary (cv_vocab (ex_vec false)) /\
  forall m : libm, match count_transform (A:=F64 m) ex_lib (ex_vec false) (RawDocs [DocStr (lit "dog cow dog"); DocStr (lit "cat")]) with
    | Ok (Sp rows sz _) => Some (map (map (fun kv => (fst kv, toZ (snd kv)))) rows, sz) | _ => None end
  = Some ([[(1%Z, Ok 2%Z)]; [(0%Z, Ok 1%Z)]], Some 2%Z).
Proof.
  split; [|intro m; vm_compute; reflexivity]. split; [repeat constructor; cbn; intuition discriminate|]. split; [repeat constructor; cbn; intuition discriminate|].
  intros t j [E|[E|[]]]; injection E as <- <-; cbn; lia.
Qed.

(** C42.  Without sublinear_tf and on a matrix of the fitted width: every cell
    is multiplied by the idf of its column, and the rows are then normalised
    (C30) if norm is set. *)
Theorem C42_partial : forall (m : libm) (t : tfidf (F64 m)) rows dt (M : list (list (F64 m))) r c,
  rect M r c -> 1 <= r -> Forall2 stores rows M ->
  tf_sublinear t = false -> tf_use_idf t = true -> tf_expected t = Z.of_nat c -> length (tf_idf t) = c -> Forall finite (tf_idf t) ->
  exists D rows', mapped (weighted (tf_idf t)) r c M D /\ Forall2 stores rows' D /\ map (map fst) rows' = map (map fst) rows /\
    fst (tfidf_transform t (Sp rows (Some (Z.of_nat c)) dt)) =
      match tf_norm t with None => Ok (Sp rows' (Some (Z.of_nat c)) dt) | Some nm => normalize_pure (Sp rows' (Some (Z.of_nat c)) dt) nm 1 end.
Proof.
  intros m t rows dt M r c RM Hr ST HS HI HE HL HF.
  destruct (mapped_exists (weighted (tf_idf t)) M r c RM) as [D HD].
  { intros i j x Hx. destruct (cell_lt M r c i j x RM Hx) as [_ Hj]. destruct (nth_error (tf_idf t) j) as [w|] eqn:E; [|apply nth_error_None in E; lia]. exists (mul x w), w. auto. }
  assert (R : exists rows', mapM (dmapM (idf_cell (tf_idf t))) rows = Ok rows' /\ Forall2 stores rows' D /\ map (map fst) rows' = map (map fst) rows).
  { clear HE Hr. destruct RM as [LM RM], HD as [[LD RD] HD]. subst r. revert D LD RD HD. induction ST as [|d row rows M Hd F IH]; intros D LD RD H.
    - destruct D; [|discriminate]. exists []. auto.
    - destruct D as [|out D]; [discriminate|]. inversion RM as [|? ? Lr RM']; subst. inversion RD as [|? ? Lo RD']; subst.
      destruct (IH RM' D) as (rows' & E & F' & K); auto; [intros i j x Hc; apply (H (S i) j x); auto|].
      destruct (dmap_stored (idf_cell (tf_idf t)) d row out Hd) as (d' & Ed & Kd & Sd); [congruence| |].
      + intros j x Hj. destruct (H 0 j x Hj) as (v & Hv & w & Hw & ->). exists (mul x w). split; auto. unfold idf_cell. rewrite lget_nat, (proj2 (lnth_ok _ _ _) Hw). cbn [bind]. split; auto.
        intro Z0. apply (a_mul_zero _ (F64_ok m)); auto. rewrite Forall_forall in HF. eapply HF, nth_error_In; eauto.
      + exists (d' :: rows'). cbn [mapM]. rewrite Ed. cbn [bind]. rewrite E. split; auto. split; [constructor; auto|]. simpl. f_equal; auto. }
  destruct R as (rows' & E & F' & K). exists D, rows'. split; auto. split; auto. split; auto.
  rewrite (tfidf_ok t rows rows' (Z.of_nat c) dt); auto.
  apply Forall2_len in ST. destruct RM as [LM _]. destruct rows; [cbn [length] in ST; lia|discriminate].
Qed.
Print Assumptions C42_partial.

Lemma keys_nth : forall (T : Type) (a b : list (dict Z T)) i d, map (map fst) a = map (map fst) b -> nth_error a i = Some d ->
  exists d0, nth_error b i = Some d0 /\ map fst d = map fst d0.
Proof.
  intros T a. induction a as [|x a IH]; intros b i d H N; [destruct i; discriminate|]. destruct b as [|y b]; [discriminate|]. injection H as H1 H2.
  destruct i as [|i]; [injection N as <-; exists y; auto|]. apply (IH b i d H2 N).
Qed.

(** With norm l1 or l2 and finite data, the result stores exactly the matrix
    that normalising the weighted dense matrix gives. *)
Theorem C42_normalised_partial : forall (m : libm) (t : tfidf (F64 m)) nm rows dt (M : list (list (F64 m))) r c,
  rect M r c -> 1 <= r -> Forall2 stores_sorted rows M -> Forall (Forall finite) M ->
  tf_sublinear t = false -> tf_use_idf t = true -> tf_expected t = Z.of_nat c -> length (tf_idf t) = c -> Forall finite (tf_idf t) ->
  tf_norm t = Some nm -> nm = lit "l1" \/ nm = lit "l2" ->
  exists W D rows', mapped (weighted (tf_idf t)) r c M W /\ normalize_pure (ll W) nm 1 = Ok (ll D) /\
    fst (tfidf_transform t (Sp rows (Some (Z.of_nat c)) dt)) = Ok (Sp rows' (Some (Z.of_nat c)) dt) /\ Forall2 stores rows' D.
Proof.
  intros m t nm rows dt M r c RM Hr ST FM HS HI HE HL HF HN HNM.
  assert (ST' : Forall2 stores rows M) by (eapply Forall2_imp; [|exact ST]; intros d row [H _]; exact H).
  destruct (C42_partial m t rows dt M r c RM Hr ST' HS HI HE HL HF) as (W & rows1 & HW & S1 & K1 & E1). rewrite HN in E1.
  assert (SS : Forall2 stores_sorted rows1 W).
  { apply Forall2_nth_error in S1. apply Forall2_nth_error. destruct S1 as [L1 S1]. split; auto. intros i d row Hd Hrow. split; [eapply S1; eauto|].
    destruct (keys_nth _ _ _ i d K1 Hd) as (d0 & E0 & ->).
    destruct (nth_error M i) as [row0|] eqn:Em.
    - apply Forall2_nth_error in ST. destruct ST as [_ ST]. apply (ST i d0 row0); auto.
    - apply nth_error_None in Em. apply nth_error_lt in E0. apply Forall2_len in ST. lia. }
  assert (NN : Forall (Forall (fun x : F64 m => isnan x = false)) W).
  { destruct HW as [[LW RW] HW]. apply Forall_forall. intros row Hrow. apply In_nth_error in Hrow. destruct Hrow as [i Hi]. apply Forall_forall. intros x Hx. apply In_nth_error in Hx. destruct Hx as [j Hj].
    assert (CW : cell W i j = Some x) by (unfold cell; rewrite Hi; auto).
    destruct (cell_lt W r c i j x (conj LW RW) CW) as [Li Lj]. destruct (rect_cell M r c i j RM Li Lj) as [y Hy]. destruct (HW i j y Hy) as (v & Hv & w & Hw & Ev). rewrite CW in Hv. injection Hv as <-. rewrite Ev.
    assert (Fy : finite y). { unfold cell in Hy. destruct (nth_error M i) as [row'|] eqn:Er; [|discriminate]. rewrite Forall_forall in FM. specialize (FM row' (nth_error_In _ _ Er)). rewrite Forall_forall in FM. eapply FM, nth_error_In; eauto. }
    assert (Fw : finite w) by (rewrite Forall_forall in HF; eapply HF, nth_error_In; eauto).
    apply f_finite_iff in Fy. apply f_finite_iff in Fw. change (is_nan (f_mul y w) = false). rewrite f_nan_x, f_mul_x, (b2x_fin y), (b2x_fin w) by auto. simpl. unfold fround. destruct (Rlt_bool _ _); auto. destruct (Rlt_bool _ _); auto. }
  destruct (C30_sparse m nm rows1 (Some (Z.of_nat c)) dt W r c HNM (proj1 HW) Hr NN SS) as (D & rows' & ED & ES & SD & _).
  exists W, D, rows'. split; auto. split; auto. split; [rewrite E1; exact ES|auto].
Qed.
Print Assumptions C42_normalised_partial.

(** What is false: sublinear_tf always raises NameError, and a wrong width
    raises NameError instead of ValueError. *)
Theorem C42_sublinear_refuted : forall (m : libm) (t : tfidf (F64 m)) rows n dt,
  rows <> [] -> tf_sublinear t = true -> fst (tfidf_transform t (Sp rows (Some n) dt)) = Err NameError.
Proof. intros m t [|d rows] n dt N S; [congruence|]. unfold tfidf_transform. cbn. rewrite S. reflexivity. Qed.
Print Assumptions C42_sublinear_refuted.
Theorem C42_width_refuted : forall (m : libm) (t : tfidf (F64 m)) rows n dt,
  rows <> [] -> tf_sublinear t = false -> tf_use_idf t = true -> n <> tf_expected t -> fst (tfidf_transform t (Sp rows (Some n) dt)) = Err NameError.
Proof.
  intros m t [|d rows] n dt N S I H; [congruence|]. unfold tfidf_transform. cbn. rewrite S, I. destruct (Z.eqb_spec n (tf_expected t)); [congruence|]. reflexivity.
Qed.
Print Assumptions C42_width_refuted.

Definition ex_tfidf (m : libm) (nm : option pystr) : tfidf (F64 m) :=
  {| tf_norm := nm; tf_use_idf := true; tf_sublinear := false; tf_idf := [ofZ 2; ofZ 3]; tf_expected := 2 |}.
Definition shown_sp {m : libm} (x : res (arr (F64 m))) : res (list (list (Z * res Z))) :=
  match x with Ok (Sp rows _ _) => Ok (map (map (fun kv => (fst kv, toZ (snd kv)))) rows) | Ok _ => Err TypeError | Err e => Err e end.
Example C42_ex : forall m : libm,
  shown_sp (fst (tfidf_transform (ex_tfidf m None) (Sp [[(1%Z, ofZ 5)]; [(0%Z, ofZ 1); (1%Z, ofZ 4)]] (Some 2%Z) DFloat))) =
    Ok [[(1, Ok 15)]; [(0, Ok 2); (1, Ok 12)]]%Z /\
  Forall2 stores [[(1%Z, ofZ 5)]; [(0%Z, ofZ 1); (1%Z, ofZ 4 : F64 m)]] [[zero; ofZ 5]; [ofZ 1; ofZ 4]].
Proof.
  intro m. split; [vm_compute; reflexivity|]. apply Forall2_cons; [|apply Forall2_cons; [|constructor]]; (split; [|split]); cbn [map fst length In].
  - repeat constructor; cbn; intuition lia.
  - intuition lia.
  - intros j v H. destruct j as [|[|j]]; [right|left|destruct j; discriminate]; injection H as <-; [split; [intuition lia|reflexivity]|eauto].
  - repeat constructor; cbn; intuition lia.
  - intuition lia.
  - intros j v H. destruct j as [|[|j]]; [left|left|destruct j; discriminate]; injection H as <-; eauto.
Qed.

(** C43 is false of TfidfTransformer: it rescales the caller's rows in place,
    so a second call on the same matrix gives another result. *)
Theorem C43_refuted : forall m : libm, exists (t : tfidf (F64 m)) X,
  snd (tfidf_transform t X) <> X /\
  shown_sp (fst (tfidf_transform t X)) = Ok [[(0, Ok 2)]]%Z /\
  shown_sp (fst (tfidf_transform t (snd (tfidf_transform t X)))) = Ok [[(0, Ok 4)]]%Z.
Proof.
  intro m. exists (ex_tfidf m None), (Sp [[(0%Z, ofZ 1)]] (Some 2%Z) DFloat).
  assert (E1 : shown_sp (fst (tfidf_transform (ex_tfidf m None) (Sp [[(0%Z, ofZ 1)]] (Some 2%Z) DFloat))) = Ok [[(0, Ok 2)]]%Z) by (vm_compute; reflexivity).
  assert (E2 : shown_sp (fst (tfidf_transform (ex_tfidf m None) (snd (tfidf_transform (ex_tfidf m None) (Sp [[(0%Z, ofZ 1)]] (Some 2%Z) DFloat))))) = Ok [[(0, Ok 4)]]%Z) by (vm_compute; reflexivity).
  split; [|auto]. intro H. rewrite H, E1 in E2. discriminate.
Qed.
Print Assumptions C43_refuted.

(** Exactly what it does to the caller's matrix: the rows become the weighted
    rows.  With every idf 1 (or use_idf off) nothing changes. *)
Theorem C43_in_place : forall (m : libm) (t : tfidf (F64 m)) rows dt (M : list (list (F64 m))) r c,
  rect M r c -> 1 <= r -> Forall2 stores rows M ->
  tf_sublinear t = false -> tf_use_idf t = true -> tf_expected t = Z.of_nat c -> length (tf_idf t) = c -> Forall finite (tf_idf t) ->
  exists D rows', mapped (weighted (tf_idf t)) r c M D /\ Forall2 stores rows' D /\
    snd (tfidf_transform t (Sp rows (Some (Z.of_nat c)) dt)) = Sp rows' (Some (Z.of_nat c)) dt.
Proof.
  intros m t rows dt M r c RM Hr ST HS HI HE HL HF.
  set (t' := {| tf_norm := None; tf_use_idf := tf_use_idf t; tf_sublinear := tf_sublinear t; tf_idf := tf_idf t; tf_expected := tf_expected t |}).
  destruct (C42_partial m t' rows dt M r c RM Hr ST HS HI HE HL HF) as (D & rows' & HD & SD & _ & E). exists D, rows'. split; auto. split; auto.
  assert (Q : forall X, snd (tfidf_transform t X) = snd (tfidf_transform t' X)).
  { intro X. unfold tfidf_transform, t'. cbn [tf_norm tf_use_idf tf_sublinear tf_idf tf_expected]. destruct (bind _ _) as [[X1 w]|]; auto. destruct (tf_sublinear t); auto. destruct (if tf_use_idf t then _ else _) as [[u|] X2]; auto. }
  rewrite Q. unfold tfidf_transform in *. destruct (bind _ _) as [[X1 w]|]; [|discriminate]. destruct (tf_sublinear t'); [discriminate|]. destruct (if tf_use_idf t' then _ else _) as [[u|] X2]; [|discriminate]. cbn [fst snd tf_norm t'] in *. injection E as ->. reflexivity.
Qed.
Print Assumptions C43_in_place.

(** Nor is the call atomic.  If a stored column has no idf, the call raises
    IndexError; by then the rows above the failing one are weighted, so are the
    entries of the failing row that come before the failing one, and everything
    else is as it was. *)
Definition reweighed {A : arith} (idf : list A) (d d' : dict Z A) : Prop :=
  Forall2 (fun kv kv' : Z * A => fst kv' = fst kv /\ exists (j : nat) (w : A), fst kv = Z.of_nat j /\ nth_error idf j = Some w /\ snd kv' = mul (snd kv) w) d d'.
Lemma reweighed_row : forall (A : arith) (idf : list A) (d d' rest done : dict Z A), reweighed idf d d' ->
  idf_row idf done (d ++ rest) = idf_row idf (done ++ d') rest.
Proof.
  intros A idf d d' rest done H. revert done. induction H as [|[k v] [k' v'] d d' (K & j & w & J & W & V) H IH]; intro done; [rewrite app_nil_r; reflexivity|].
  cbn [fst snd] in *. subst k' k v'. cbn [app idf_row]. rewrite lget_nat, (proj2 (lnth_ok _ _ _) W), IH, <- app_assoc. reflexivity.
Qed.
Theorem C43_failure : forall (A : arith) (t : tfidf A) (above above' : list (dict Z A)) (before before' after : dict Z A) (j : nat) (v : A) (below : list (dict Z A)) dt,
  tf_sublinear t = false -> tf_use_idf t = true ->
  Forall2 (reweighed (tf_idf t)) above above' -> reweighed (tf_idf t) before before' -> length (tf_idf t) <= j ->
  tfidf_transform t (Sp (above ++ (before ++ (Z.of_nat j, v) :: after) :: below) (Some (tf_expected t)) dt) =
    (Err IndexError, Sp (above' ++ (before' ++ (Z.of_nat j, v) :: after) :: below) (Some (tf_expected t)) dt).
Proof.
  intros A t above above' before before' after j v below dt HS HU HA HB HJ.
  assert (R : idf_rows (tf_idf t) (map Di (above ++ (before ++ (Z.of_nat j, v) :: after) :: below)) =
              (Err IndexError, map Di (above' ++ (before' ++ (Z.of_nat j, v) :: after) :: below))).
  { induction HA as [|d d' above above' Hd HA IH].
    - cbn [app map idf_rows]. rewrite (reweighed_row _ _ _ _ _ [] HB). cbn [app idf_row].
      rewrite lget_nat. unfold lnth. rewrite (proj2 (nth_error_None _ _) HJ). reflexivity.
    - cbn [app map idf_rows]. rewrite <- (app_nil_r d), (reweighed_row _ _ _ _ _ [] Hd). cbn [app idf_row]. rewrite IH. reflexivity. }
  unfold tfidf_transform. cbn [check_array bind]. unfold shape. cbn [items bind].
  assert (N : exists x l, map Di (above ++ (before ++ (Z.of_nat j, v) :: after) :: below) = @Di A x :: l) by (destruct above; cbn [app map]; eauto).
  destruct N as (x & l & N). rewrite N. cbn [bind]. rewrite HS, HU, Z.eqb_refl. cbn [items]. rewrite R.
  unfold with_items. rewrite map_map, map_id. reflexivity.
Qed.
Print Assumptions C43_failure.
Example C43_failure_ex : forall m : libm,
  Forall2 (reweighed (tf_idf (ex_tfidf m None))) [[(0%Z, ofZ 5)]] [[(0%Z, mul (ofZ 5) (ofZ 2))]] /\
  reweighed (tf_idf (ex_tfidf m None)) [(1%Z, ofZ 4)] [(1%Z, mul (ofZ 4) (ofZ 3))] /\ length (tf_idf (ex_tfidf m None)) <= 7.
Proof.
  intro m. split; [constructor; [|constructor]|split]; [| |cbn; lia]; (constructor; [|constructor]); cbn [fst snd]; (split; [reflexivity|]).
  - exists 0, (ofZ 2). repeat split.
  - exists 1, (ofZ 3). repeat split.
Qed.

(** C44, binary=False.  TfidfVectorizer is counting followed by weighting, end
    to end: the column of term [t] holds (occurrences of t) * (idf of t), rows
    then normalised if norm is set. *)
Lemma idf_term_row : forall (m : libm) (v : dict pystr Z) (idf : list (F64 m)) (f wt : pystr -> F64 m) r,
  (forall t j, In (t, j) v -> (0 <= j)%Z /\ nth_error idf (Z.to_nat j) = Some (wt t) /\ finite (wt t)) -> vocabulary v -> term_row v f r ->
  exists r', dmapM (idf_cell idf) r = Ok r' /\ term_row v (fun t => mul (f t) (wt t)) r'.
Proof.
  intros m v idf f wt r HW V (ND & H1 & H2).
  assert (C : forall t j, In (t, j) v -> idf_cell idf j (f t) = Ok (mul (f t) (wt t))).
  { intros t j I. destruct (HW t j I) as (J0 & J1 & _). unfold idf_cell. rewrite <- (Z2Nat.id j) by auto. rewrite lget_nat, (proj2 (lnth_ok _ _ _) J1). auto. }
  assert (T : exists r', dmapM (idf_cell idf) r = Ok r').
  { apply mapM_total. intros [j x] I. cbn [fst snd]. destruct (H1 j x I) as (t & It & ->). rewrite (C t j It). cbn [bind]. eauto. }
  destruct T as [r' E]. exists r'. split; auto. unfold dmapM in E. pose proof (proj1 (mapM_Forall2 _ _ _) E) as F.
  assert (KE : map fst r' = map fst r).
  { clear -F. induction F as [|[k x] [k' x'] d d' E F IH]; simpl; auto. cbn [fst snd] in E. inv_bind E. injection E as <- <-. f_equal. auto. }
  split; [rewrite KE; auto|]. split.
  - intros j y I. apply In_nth_error in I. destruct I as [n Hn]. destruct (mapM_nth_inv _ _ _ n _ E Hn) as ([j' x] & Hx & Ex). cbn [fst snd] in Ex.
    destruct (H1 j' x (nth_error_In _ _ Hx)) as (t & It & ->). rewrite (C t j' It) in Ex. cbn [bind] in Ex. injection Ex as <- <-. exists t. auto.
  - intros t j It. destruct (H2 t j It) as [I|[N Z0]].
    + left. apply In_nth_error in I. destruct I as [n Hn]. destruct (mapM_nth _ _ _ n _ E Hn) as (y & Hy & Ey). cbn [fst snd] in Ey. rewrite (C t j It) in Ey. cbn [bind] in Ey. injection Ey as <-. eapply nth_error_In; eauto.
    + right. split; [rewrite KE; auto|]. apply (a_mul_zero _ (F64_ok m)); auto. apply (HW t j It).
Qed.
Theorem C44_partial : forall (m : libm) (U : textlib) (v : countvec) (t : tfidf (F64 m)) an docs fss (wt : pystr -> F64 m),
  vocabulary (cv_vocab v) -> cv_binary v = false -> docs <> [] ->
  build_analyzer U (cv_conf v) = Ok an -> Forall2 (fun d fs => an d = Ok fs) docs fss ->
  Forall (fun fs => (Z.of_nat (length fs) <= 2 ^ 53)%Z) fss ->
  tf_sublinear t = false -> tf_use_idf t = true -> tf_expected t = Z.of_nat (length (cv_vocab v)) ->
  (forall w j, In (w, j) (cv_vocab v) -> nth_error (tf_idf t) (Z.to_nat j) = Some (wt w) /\ finite (wt w)) ->
  exists rows', Forall2 (fun fs r => term_row (cv_vocab v) (fun w => mul (ofnat (occurrences w fs)) (wt w)) r) fss rows' /\
    tfidf_vec_transform U v t (RawDocs docs) =
      let X := Sp rows' (Some (Z.of_nat (length (cv_vocab v)))) (cv_dtype v) in
      match tf_norm t with None => Ok X | Some nm => normalize_pure X nm 1 end.
Proof.
  intros m U v t an docs fss wt V HB ND HA HF HL HS HI HE HW.
  destruct (C41_counts m U v an docs fss V HB ND HA HF HL) as (rows & EC & TR).
  assert (R : exists rows', mapM (dmapM (idf_cell (tf_idf t))) rows = Ok rows' /\ Forall2 (fun fs r => term_row (cv_vocab v) (fun w => mul (ofnat (occurrences w fs)) (wt w)) r) fss rows').
  { clear -TR V HW. induction TR as [|fs r fss rows T F IH]; [exists []; split; [reflexivity|constructor]|]. destruct IH as (rows' & E & F').
    assert (P : forall w j, In (w, j) (cv_vocab v) -> (0 <= j)%Z /\ nth_error (tf_idf t) (Z.to_nat j) = Some (wt w) /\ finite (wt w)).
    { intros w j I. destruct (HW w j I). destruct V as (_ & _ & V). destruct (V w j I). auto. }
    destruct (idf_term_row m (cv_vocab v) (tf_idf t) (fun t => ofnat (occurrences t fs)) wt r P V T) as (r' & E' & T').
    exists (r' :: rows'). cbn [mapM]. rewrite E'. cbn [bind]. rewrite E. split; [reflexivity|constructor; auto]. }
  destruct R as (rows' & E & F'). exists rows'. split; auto. unfold tfidf_vec_transform. rewrite EC. cbn [bind].
  rewrite (tfidf_ok t rows rows' (Z.of_nat (length (cv_vocab v))) (cv_dtype v)); auto.
  apply Forall2_len in HF. apply Forall2_len in TR. destruct docs; [congruence|]. destruct rows; [cbn [length] in *; lia|discriminate].
Qed.
Print Assumptions C44_partial.

(** binary=True is not "counting followed by weighting": a document that holds
    one of the two terms makes the call raise NameError (the plain list of
    dicts has as its width the number of stored cells of its first row). *)
Theorem C44_binary_refuted : forall m : libm, exists docs,
  (an <- build_analyzer ex_lib (cv_conf (ex_vec true)) ;; mapM an docs) = Ok [[lit "dog"]] /\
  tf_expected (ex_tfidf m None) = Z.of_nat (length (cv_vocab (ex_vec true))) /\
  tfidf_vec_transform ex_lib (ex_vec true) (ex_tfidf m None) (RawDocs docs) = Err NameError.
Proof. intro m. exists [DocStr (lit "dog")]. split; [vm_compute; reflexivity|]. split; [reflexivity|]. vm_compute. reflexivity. Qed.
Print Assumptions C44_binary_refuted.
Example C44_ex : forall m : libm,
  shown_sp (tfidf_vec_transform ex_lib (ex_vec false) (ex_tfidf m None) (RawDocs [DocStr (lit "dog cow dog"); DocStr (lit "cat dog")])) =
  Ok [[(1, Ok 6)]; [(0, Ok 2); (1, Ok 3)]]%Z.
Proof. intro m. vm_compute. reflexivity. Qed.
