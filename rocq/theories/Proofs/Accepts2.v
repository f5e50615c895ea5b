(** Proofs that well-formed inputs are accepted: text, dicts and categories. *)
From Coq Require Import String Lia.
From Verif Require Import Model.Py Model.Arith Model.Utils Model.Base Model.Hash Model.DictVec Model.Text Model.Tree
  Model.Ensemble Model.Xgb Model.Linear Model.NaiveBayes Model.Dummy Model.Preprocessing Model.Encoders
  Model.Impute Model.Pipeline Model.Est.
From Verif Require Import Spec.Matrix Spec.Encode Spec.Impute Spec.Pipeline Spec.Accepts Proofs.Lib Proofs.Laws Proofs.Argmax Proofs.Arrays Proofs.Encode Proofs.Text Proofs.Pipeline Proofs.Accepts.

Definition okc (c : Z) : Prop := (0 <= c < 55296 \/ 57343 < c < 1114112)%Z.

Section Texts.
  Variable U : textlib.
  Hypothesis GU : good_lib U.

  Lemma okc_32 : okc 32. Proof. unfold okc. lia. Qed.
  Lemma text_in : forall s t, text s -> (forall c, In c t -> In c s) -> text t.
  Proof. intros s t H I. unfold text in *. rewrite Forall_forall in *. auto. Qed.
  Lemma In_firstn' : forall {T} n (l : list T) x, In x (firstn n l) -> In x l.
  Proof. intros T n l x H. rewrite <- (firstn_skipn n l). apply in_or_app. auto. Qed.
  Lemma In_skipn' : forall {T} n (l : list T) x, In x (skipn n l) -> In x l.
  Proof. intros T n l x H. rewrite <- (firstn_skipn n l). apply in_or_app. auto. Qed.
  Lemma In_pyslice : forall {T} (l : list T) i j x, In x (pyslice l i j) -> In x l.
  Proof. intros T l i j x H. unfold pyslice in H. apply In_firstn' in H. apply In_skipn' in H. auto. Qed.

  Lemma text_accent : forall c, (tc_strip c = None \/ tc_strip c = Some (lit "ascii") \/ tc_strip c = Some (lit "unicode")) ->
    exists f, accent_fun U c = Ok f /\ forall s, text s -> text (f s).
  Proof.
    intros c [H|[H|H]]; unfold accent_fun; rewrite H.
    - eexists. split; [reflexivity|auto].
    - change (str_eqb (lit "ascii") (lit "ascii")) with true. cbv iota. eexists. split; [reflexivity|]. intros s Hs. unfold strip_accents_ascii.
      apply (text_in (x_nfkd U s)); [apply GU; auto|]. intros x Hx. apply filter_In in Hx. tauto.
    - change (str_eqb (lit "unicode") (lit "ascii")) with false. change (str_eqb (lit "unicode") (lit "unicode")) with true. cbv iota. eexists. split; [reflexivity|].
      intros s Hs. unfold strip_accents_unicode. destruct (forallb _ s); auto. apply (text_in (x_nfkd U s)); [apply GU; auto|]. intros x Hx. apply filter_In in Hx. tauto.
  Qed.
  Lemma text_preprocess : forall c f s, (forall s, text s -> text (f s)) -> text s -> text (preprocess U c f s).
  Proof. intros c f s Hf Hs. unfold preprocess. apply Hf. destruct (tc_lower c); auto. apply GU; auto. Qed.

  Lemma ws_text : forall s pend, match pend with None => True | Some (c, _) => okc c end -> text s -> text (ws_collapse U pend s).
  Proof.
    induction s as [|c s IH]; intros pend HP Hs; cbn [ws_collapse].
    - destruct pend as [[c []]|]; cbn [ws_flush]; try (apply Forall_cons; [|constructor]); auto; try apply okc_32; constructor.
    - inversion Hs; subst. destruct (x_space U c).
      + apply IH; auto. destruct pend as [[c0 b]|]; auto.
      + apply Forall_app. split; [destruct pend as [[c0 []]|]; cbn [ws_flush]; try (apply Forall_cons; [|constructor]); auto; try apply okc_32; constructor|]. constructor; auto. apply IH; auto.
  Qed.
  Lemma split_text : forall s cur, text cur -> text s -> Forall text (split_ws U cur s).
  Proof.
    induction s as [|c s IH]; intros cur HC Hs; cbn [split_ws].
    - destruct cur; [constructor|apply Forall_cons; [auto|constructor]].
    - inversion Hs; subst. destruct (x_space U c).
      + destruct cur; [apply IH; auto|]. constructor; auto. apply IH; auto. constructor.
      + apply IH; auto. apply Forall_app. split; auto.
  Qed.
  Lemma join_text : forall l, Forall text l -> text (space_join l).
  Proof.
    induction l as [|w l IH]; intros H; cbn [space_join]; [constructor|]. inversion H; subst. destruct l as [|w' l]; auto.
    apply Forall_app. split; auto. constructor; [apply okc_32|]. apply IH; auto.
  Qed.
  Lemma words_text : forall lo hi stop toks, Forall text toks -> Forall text (word_ngrams lo hi stop toks).
  Proof.
    intros lo hi stop toks H. unfold word_ngrams. set (tk := match stop with None => toks | Some st => _ end).
    assert (HT : Forall text tk). { unfold tk. destruct stop; auto. apply Forall_forall. intros x Hx. apply filter_In in Hx. rewrite Forall_forall in H. apply H, Hx. }
    clearbody tk. destruct (hi =? 1)%Z; auto.
    assert (G : forall l', Forall text (concat (map (fun k => map (fun i => space_join (pyslice tk i (i + k))) (zrange 0 (Z.of_nat (length tk) - k + 1))) (zrange l' (Z.min (hi + 1) (Z.of_nat (length tk) + 1)))))).
    { intro l'. apply Forall_forall. intros x Hx. apply in_concat in Hx. destruct Hx as (g & Hg & Hx). apply in_map_iff in Hg. destruct Hg as (k & <- & _).
      apply in_map_iff in Hx. destruct Hx as (i & <- & _). apply join_text. apply Forall_forall. intros y Hy. apply In_pyslice in Hy. rewrite Forall_forall in HT. auto. }
    destruct (lo =? 1)%Z; apply Forall_app; split; auto.
  Qed.
  Lemma chars_text : forall lo hi s, text s -> Forall text (char_ngrams U lo hi s).
  Proof.
    intros lo hi s H. unfold char_ngrams. assert (HT : text (white_spaces_sub U s)) by (apply ws_text; auto). revert HT. generalize (white_spaces_sub U s). intros t HT.
    assert (G : forall l', Forall text (concat (map (fun k => map (fun i => pyslice t i (i + k)) (zrange 0 (Z.of_nat (length t) - k + 1))) (zrange l' (Z.min (hi + 1) (Z.of_nat (length t) + 1)))))).
    { intro l'. apply Forall_forall. intros x Hx. apply in_concat in Hx. destruct Hx as (g & Hg & Hx). apply in_map_iff in Hg. destruct Hg as (k & <- & _).
      apply in_map_iff in Hx. destruct Hx as (i & <- & _). apply (text_in t); auto. intros c Hc. apply In_pyslice in Hc. auto. }
    destruct (lo =? 1)%Z; apply Forall_app; split; auto. apply Forall_forall. intros x Hx. apply in_map_iff in Hx. destruct Hx as (c & <- & Hc).
    constructor; [|constructor]. unfold text in HT. rewrite Forall_forall in HT. exact (HT c Hc).
  Qed.
  Lemma wb_text : forall w ks, text w -> Forall text (wb_word w ks).
  Proof.
    intros w ks H. induction ks as [|k ks IH]; cbn [wb_word]; [constructor|]. apply Forall_app. split.
    - apply Forall_forall. intros x Hx. apply in_map_iff in Hx. destruct Hx as (i & <- & _). apply (text_in w); auto. intros c Hc. apply In_pyslice in Hc. auto.
    - destruct (_ =? 0)%Z; auto.
  Qed.
  Lemma charwb_text : forall lo hi s, text s -> Forall text (char_wb_ngrams U lo hi s).
  Proof.
    intros lo hi s H. unfold char_wb_ngrams. apply Forall_forall. intros x Hx. apply in_concat in Hx. destruct Hx as (g & Hg & Hx). apply in_map_iff in Hg. destruct Hg as (w & <- & Hw).
    assert (TW : text w).
    { pose proof (split_text (white_spaces_sub U s) [] (Forall_nil _) (ws_text s None I H)) as F. rewrite Forall_forall in F. apply F, Hw. }
    assert (F : Forall text (wb_word (32%Z :: w ++ [32%Z]) (zrange lo (hi + 1)))); [|rewrite Forall_forall in F; apply F; auto].
    apply wb_text. constructor; [apply okc_32|]. apply Forall_app. split; auto. constructor; [apply okc_32|constructor].
  Qed.

  Lemma analyzer_ok : forall c, good_conf U c -> exists an, build_analyzer U c = Ok an /\
    forall s, text s -> exists fs, an (DocStr s) = Ok fs /\ Forall text fs.
  Proof.
    intros c [HS HA]. unfold build_analyzer. destruct (text_accent c HS) as (f & -> & Hf). cbn [bind].
    destruct HA as [->|[->|(-> & HP & HST)]].
    - change (str_eqb (lit "char") (lit "char")) with true. cbv iota. eexists. split; [reflexivity|]. intros s Hs. cbn [decode bind]. eexists. split; [reflexivity|].
      apply chars_text, text_preprocess; auto.
    - change (str_eqb (lit "char_wb") (lit "char")) with false. change (str_eqb (lit "char_wb") (lit "char_wb")) with true. cbv iota. eexists. split; [reflexivity|].
      intros s Hs. cbn [decode bind]. eexists. split; [reflexivity|]. apply charwb_text, text_preprocess; auto.
    - change (str_eqb (lit "word") (lit "char")) with false. change (str_eqb (lit "word") (lit "char_wb")) with false. change (str_eqb (lit "word") (lit "word")) with true. cbv iota.
      assert (ES : exists st, check_stop_list (tc_stop c) = Ok st) by (destruct (tc_stop c); [eexists; reflexivity|contradiction|eexists; reflexivity]).
      destruct ES as [st ->]. cbn [bind]. eexists. split; [reflexivity|]. intros s Hs. cbn [decode bind].
      destruct (HP (preprocess U c f s) (text_preprocess c f s Hf Hs)) as (ws & -> & HW). cbn [bind]. eexists. split; [reflexivity|]. apply words_text; auto.
  Qed.

  Context {A : arith} (TA : total_arith A).

  Lemma dset_row : forall w j (v : A) d, (0 <= j < Z.of_nat w)%Z -> row_of w d -> row_of w (dset Z.eqb j v d).
  Proof.
    intros w j v d Hj [N K]. split; [apply (NoDup_dset Z.eqb Zeqb_ok); auto|]. intros k Hk. change (In k (dkeys (dset Z.eqb j v d))) in Hk.
    rewrite (dkeys_dset Z.eqb) in Hk. destruct (dmem Z.eqb j d); auto. apply in_app_or in Hk. destruct Hk as [Hk|[<-|[]]]; auto.
  Qed.
  Lemma row_nil : forall w, row_of (A:=A) w [].
  Proof. intro w. split; [constructor|]. intros k []. Qed.
  Lemma count_row : forall v fs, good_vocab v -> row_of (A:=A) (length v) (count_features v fs).
  Proof.
    intros v fs GV. unfold count_features. generalize (row_nil (length v)). generalize (@nil (Z * A)). induction fs as [|f fs IH]; intros d Hd; cbn [fold_left]; auto.
    apply IH. destruct (dlookup str_eqb f v) as [j|] eqn:E; auto. apply (dlookup_in str_eqb str_eqb_ok) in E. apply GV in E. destruct (dlookup Z.eqb j d); apply dset_row; auto.
  Qed.

  Lemma count_ok : forall c l n, cv_binary c = false -> good_conf U (cv_conf c) -> good_vocab (cv_vocab c) -> 1 <= n -> length l = n -> Forall text l ->
    exists rows, count_transform (A:=A) U c (RawDocs (map DocStr l)) = Ok (Sp rows (Some (Z.of_nat (length (cv_vocab c)))) (cv_dtype c)) /\
      length rows = n /\ Forall (row_of (length (cv_vocab c))) rows.
  Proof.
    intros c l n HB HC HV Hn LL HT. unfold count_transform, count_vocab. destruct (analyzer_ok (cv_conf c) HC) as (an & -> & HAN). cbn [bind]. rewrite mapM_map.
    destruct (mapM_all (fun s => fs <- an (DocStr s) ;; Ok (count_features (A:=A) (cv_vocab c) fs)) (row_of (length (cv_vocab c))) l) as (rows & E & LR & FR).
    - intros s Hs. rewrite Forall_forall in HT. destruct (HAN s (HT s Hs)) as (fs & -> & _). cbn [bind]. eexists. split; [reflexivity|]. apply count_row; auto.
    - rewrite E. cbn [bind]. rewrite sparse_list_ne by (intros ->; cbn in LR; lia). cbn [bind]. rewrite HB. exists rows. repeat split; auto. lia.
  Qed.

  Lemma utf8_text : forall s, text s -> exists bs, utf8 s = Ok bs.
  Proof.
    intros s H. unfold utf8. destruct (mapM_all utf8_char (fun _ => True) s) as (bs & -> & _); [|eexists; reflexivity].
    intros c Hc. unfold text in H. rewrite Forall_forall in H. specialize (H c Hc). unfold utf8_char. destruct (c <? 128)%Z; [eauto|]. destruct (c <? 2048)%Z; [eauto|].
    assert (E : ((55296 <=? c) && (c <=? 57343))%Z = false) by (apply andb_false_iff; destruct H; [left; apply Z.leb_gt|right; apply Z.leb_gt]; lia). rewrite E. destruct (c <? 65536)%Z; eauto.
  Qed.
  Lemma hash_row_ok : forall w alt fs, (1 <= Z.of_nat w)%Z -> Forall text fs ->
    exists d, hash_row (A:=A) (Z.of_nat w) alt 0 (map (fun f => (f, FNum one)) fs) = Ok d /\ row_of w d.
  Proof.
    intros w alt fs Hw. unfold hash_row. generalize (row_nil w). generalize (@nil (Z * A)). induction fs as [|f fs IH]; intros d Hd HF; cbn [map foldM]; [eauto|].
    inversion HF as [|? ? H1 H2]; subst. cbn [snd fst]. rewrite (ta_one _ TA). unfold hash. destruct (utf8_text f H1) as [bs ->]. cbn [bind]. apply IH; auto.
    apply dset_row; auto. apply Z.mod_pos_bound. lia.
  Qed.
  Lemma hashvec_ok : forall h w l n, hv_binary h = false -> good_conf U (hv_conf h) -> hv_nfeat h = Z.of_nat w -> (1 <= Z.of_nat w < 2147483648)%Z ->
    match hv_norm h with None => True | Some nm => In nm norm_names end -> 1 <= n -> length l = n -> Forall text l ->
    exists rows, hashvec_transform (A:=A) U h (RawDocs (map DocStr l)) = Ok (Sp rows (Some (Z.of_nat w)) (hv_dtype h)) /\ length rows = n /\ Forall (row_of w) rows.
  Proof.
    intros h w l n HB HC HN HW HM Hn LL HT. unfold hashvec_transform. destruct (analyzer_ok (hv_conf h) HC) as (an & -> & HAN). cbn [bind].
    unfold hasher_transform_string, validate_hasher. rewrite HN.
    replace ((Z.of_nat w <? 1) || (2147483648 <=? Z.of_nat w))%Z with false by (symmetry; apply orb_false_iff; split; [apply Z.ltb_ge|apply Z.leb_gt]; lia).
    cbn [negb guard bind]. replace (mem str_eqb (lit "string") [lit "dict"; lit "pair"; lit "string"]) with true by reflexivity. cbn [guard bind].
    unfold hashing_transform. replace (0 <? Z.of_nat w)%Z with true by (symmetry; apply Z.ltb_lt; lia). cbn [guard bind]. rewrite map_map, map_map, mapM_map.
    destruct (mapM_all (fun s => x <- (x <- an (DocStr s) ;; Ok (map (fun f : pystr => (f, FNum (one : A))) x)) ;; hash_row (Z.of_nat w) (hv_alt h) 0 x) (row_of w) l) as (rows & E & LR & FR).
    - intros s Hs. rewrite Forall_forall in HT. destruct (HAN s (HT s Hs)) as (fs & -> & FT). cbn [bind]. apply hash_row_ok; auto; lia.
    - rewrite E. cbn [bind]. rewrite sparse_list_ne by (intros ->; cbn in LR; lia). cbn [bind]. rewrite HB. cbn [bind]. destruct (hv_norm h) as [nm|].
      + destruct (normalize_sparse TA nm rows n w (Some (Z.of_nat w)) (hv_dtype h)) as (rows' & E' & L' & F'); auto; [lia|]. eauto.
      + exists rows. repeat split; auto. lia.
  Qed.

  (** TfidfTransformer. *)
  Lemma idf_row_ok : forall (idf : list A) w todo done, length idf = w -> (forall k, In k (map fst todo) -> (0 <= k < Z.of_nat w)%Z) ->
    exists d, idf_row idf done todo = (Ok d, d) /\ map fst d = map fst done ++ map fst todo.
  Proof.
    intros idf w todo. induction todo as [|[k v] todo IH]; intros done LI H; cbn [idf_row].
    - exists done. rewrite app_nil_r. auto.
    - destruct (lget_in_range idf k) as (x & -> & _); [rewrite LI; apply H; left; auto|]. destruct (IH (done ++ [(k, mul v x)]) LI) as (d & E & K); [intros; apply H; right; auto|].
      exists d. split; auto. rewrite K, map_app, <- app_assoc. reflexivity.
  Qed.
  Lemma idf_rows_ok : forall (idf : list A) w rows, length idf = w -> Forall (row_of w) rows ->
    exists rows', idf_rows idf (map Di rows) = (Ok tt, map Di rows') /\ length rows' = length rows /\ Forall (row_of w) rows'.
  Proof.
    intros idf w rows LI F. induction F as [|d rows Hd F IH]; [exists []; repeat split; constructor|]. destruct IH as (rows' & E & LR & FR).
    cbn [map idf_rows]. destruct (idf_row_ok idf w d [] LI) as (d' & -> & K); [apply Hd|]. rewrite E. exists (d' :: rows'). split; auto. split; [cbn [length]; lia|].
    constructor; auto. apply (row_keys w d); auto.
  Qed.
  Lemma tfidf_ok : forall (t : tfidf A) w rows n dt, good_tfidf t w -> 1 <= n -> length rows = n -> Forall (row_of w) rows ->
    exists rows1 rows2, tfidf_transform t (Sp rows (Some (Z.of_nat w)) dt) = (Ok (Sp rows2 (Some (Z.of_nat w)) dt), Sp rows1 (Some (Z.of_nat w)) dt) /\
      length rows1 = n /\ Forall (row_of w) rows1 /\ length rows2 = n /\ Forall (row_of w) rows2 /\ (tf_norm t = None -> rows2 = rows1).
  Proof.
    intros t w rows n dt (HS & HI & HN) Hn LR FR. unfold tfidf_transform. cbn [check_array bind].
    assert (SH : shape (Sp rows (Some (Z.of_nat w)) dt) = Ok (S2 (Z.of_nat n) (Some (Z.of_nat w)))).
    { unfold shape. cbn [items bind]. destruct rows as [|d rows]; [cbn in LR; lia|]. cbn [map]. cbn [length]. rewrite map_length. cbn [length] in LR. rewrite LR. reflexivity. }
    rewrite SH. cbn [bind]. rewrite HS.
    assert (P : exists rows1, (if tf_use_idf t then
              if (Z.of_nat w =? tf_expected t)%Z then
                match items (Sp rows (Some (Z.of_nat w)) dt) with
                | Ok l => let '(r, l') := idf_rows (tf_idf t) l in (r, with_items (Sp rows (Some (Z.of_nat w)) dt) l')
                | Err e => (Err e, Sp rows (Some (Z.of_nat w)) dt)
                end
              else (Err NameError, Sp rows (Some (Z.of_nat w)) dt)
            else (Ok tt, Sp rows (Some (Z.of_nat w)) dt)) = (Ok tt, Sp rows1 (Some (Z.of_nat w)) dt) /\ length rows1 = n /\ Forall (row_of w) rows1).
    { destruct (tf_use_idf t); [|eauto]. destruct (HI eq_refl) as [-> LI]. rewrite Z.eqb_refl. cbn [items]. destruct (idf_rows_ok (tf_idf t) w rows LI FR) as (rows1 & -> & L1 & F1).
      exists rows1. split; [|split; auto; lia]. cbn [with_items]. rewrite map_map, map_id. reflexivity. }
    destruct P as (rows1 & -> & L1 & F1). destruct (tf_norm t) as [nm|].
    - destruct (normalize_sparse TA nm rows1 n w (Some (Z.of_nat w)) dt) as (rows2 & -> & L2 & F2); auto. exists rows1, rows2. repeat split; auto. discriminate.
    - exists rows1, rows1. repeat split; auto.
  Qed.

  (** DictVectorizer. *)
  Lemma dense_of_sparse : forall (rows : list (dict Z A)) w dt, exists D, todense (Sp rows (Some (Z.of_nat w)) dt) = Ok D /\ rect D (length rows) w.
  Proof.
    intros rows w dt. unfold todense. rewrite mapM_Ok. eexists. split; [reflexivity|]. split; [apply map_length|]. apply Forall_forall. intros r Hr. apply in_map_iff in Hr.
    destruct Hr as (d & <- & _). rewrite map_length, zrange_length. lia.
  Qed.
  Lemma dv_row_total : forall d (x : dict pystr (fval A)), dv_dtype d <> DInt -> good_vocab (dv_vocab d) -> exists r, dv_row d x = Ok r /\ row_of (length (dv_vocab d)) r.
  Proof.
    intros d x HD GV. unfold dv_row. generalize (row_nil (length (dv_vocab d))). generalize (@nil (Z * A)). induction x as [|[k v] x IH]; intros r Hr; cbn [foldM]; [eauto|].
    cbn [snd fst]. destruct (match v with FStr s => _ | FNum v0 => _ end) as [f u]. destruct (dlookup str_eqb f (dv_vocab d)) as [j|] eqn:E; [|cbn [bind]; apply IH; auto].
    apply (dlookup_in str_eqb str_eqb_ok) in E. apply GV in E.
    assert (EC : exists u', conv (dv_dtype d) u = Ok u') by (unfold conv; destruct (dv_dtype d); [eauto|congruence|eauto]). destruct EC as [u' ->]. cbn [bind]. apply IH. apply dset_row; auto.
  Qed.
  Lemma dv_ok : forall d (l : list (dict pystr (fval A))) n, dv_dtype d <> DInt -> good_vocab (dv_vocab d) -> 1 <= n -> length l = n ->
    exists rows, length rows = n /\ Forall (row_of (length (dv_vocab d))) rows /\
      if dv_sparse d then dv_transform d (Maps l) = Ok (Sp rows (Some (Z.of_nat (length (dv_vocab d)))) (dv_dtype d))
      else exists D, dv_transform d (Maps l) = Ok (ll D) /\ rect D n (length (dv_vocab d)).
  Proof.
    intros d l n HD GV Hn LL. unfold dv_transform. destruct (mapM_all (dv_row d) (row_of (length (dv_vocab d))) l) as (rows & E & LR & FR).
    - intros x _. apply dv_row_total; auto.
    - rewrite E. cbn [bind]. rewrite sparse_list_ne by (intros ->; cbn in LR; lia). cbn [bind]. exists rows. split; [lia|]. split; auto. destruct (dv_sparse d); auto.
      destruct (dense_of_sparse rows (length (dv_vocab d)) (dv_dtype d)) as (D & -> & RD). cbn [bind]. exists D. split; auto. rewrite <- LL, <- LR. auto.
  Qed.
End Texts.
