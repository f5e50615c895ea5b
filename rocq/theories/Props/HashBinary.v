(** C86: HashingVectorizer with binary=True. *)
From Coq Require Import String Lia.
From Verif Require Import Model.Py Model.Arith Model.F64 Model.Utils Model.Base Model.Preprocessing Model.Hash Model.DictVec Model.Text Model.Pipeline.
From Verif Require Import Spec.Matrix Spec.Text Spec.Features Spec.Batch.
From Verif Require Import Proofs.Lib Proofs.Laws Proofs.Arrays Proofs.Features Proofs.Rows Proofs.Batch Proofs.BatchText Proofs.BatchEst Props.Text Props.Features Props.Batch.
Local Open Scope Z_scope.

(** [cols] are the columns hit by the hashes [hs], each once. *)
Definition columns_hit (n : Z) (hs cols : list Z) : Prop := NoDup cols /\ forall j, In j cols <-> exists h, In h hs /\ column n h = j.

Lemma last_of_hit : forall n j hs, match last_of Z.eq_dec j (map (fun h => (column n h, h)) hs) with None => forall h, In h hs -> column n h <> j | Some _ => exists h, In h hs /\ column n h = j end.
Proof.
  intros n j hs. induction hs as [|h hs IH]; cbn [map last_of]; [intros h []|]. destruct (last_of Z.eq_dec j (map (fun h => (column n h, h)) hs)) as [h'|].
  - destruct IH as (h1 & H1 & H2). exists h1. split; auto. right; auto.
  - destruct (Z.eq_dec (column n h) j) as [E|E]; [exists h; split; auto; left; auto|]. intros h1 [<-|H]; auto.
Qed.

(** The vectorizer with binary=True, up to its last step. *)
Lemma binary_rows : forall (m : libm) (U : textlib) (v : hashvec) an docs fss hss,
  hv_binary v = true -> 1 <= hv_nfeat v < 2 ^ 31 -> docs <> [] -> build_analyzer U (hv_conf v) = Ok an ->
  Forall2 (fun d fs => an d = Ok fs) docs fss -> Forall (Forall (fun t => Forall (fun c => 0 <= c < 1114112) t /\ Z.of_nat (length t) < 2 ^ 30)) fss ->
  Forall2 (Forall2 feature_hash) fss hss ->
  exists colss, Forall2 (columns_hit (hv_nfeat v)) hss colss /\
    hashvec_transform (A:=F64 m) U v (RawDocs docs) =
      (let X := Arr (map (fun c => Di (map (fun j => (j, one)) c)) colss) in match hv_norm v with None => Ok X | Some nm => normalize_pure X nm 1 end).
Proof.
  intros m U v an docs fss hss HB HN ND HA HF HU HH.
  destruct (C47_partial m U {| hv_conf := hv_conf v; hv_nfeat := hv_nfeat v; hv_binary := false; hv_norm := None; hv_alt := hv_alt v; hv_dtype := hv_dtype v |} an docs fss hss eq_refl HN ND HA HF HU HH) as (rows & E & F).
  cbn [hv_nfeat hv_dtype hv_norm hv_alt] in E, F. exists (map (map fst) rows). split.
  - apply Forall2_map_r. eapply Forall2_imp; [|exact F]. cbn beta. intros hs r [N H]. split; auto. intro j. specialize (H j). pose proof (last_of_hit (hv_nfeat v) j hs) as Q.
    destruct (last_of Z.eq_dec j _) as [h|].
    + split; auto. intros _. apply in_map_iff. eexists. split; [|exact H]. reflexivity.
    + split; [intro I; contradiction|]. intros (h & Hh & Ec). destruct (Q h Hh Ec).
  - unfold hashvec_transform in *. cbn [hv_conf hv_nfeat hv_binary hv_norm hv_alt hv_dtype] in E. rewrite HA in *. cbn [bind] in *.
    destruct (hasher_transform_string (A:=F64 m) (hv_nfeat v) (hv_dtype v) (hv_alt v) (map an docs)) as [X|]; [|discriminate]. cbn [bind] in *. injection E as ->.
    rewrite HB, binarize_sp. cbn [bind]. assert (Q : map Di (map ones rows) = map (fun c => Di (T:=F64 m) (map (fun j => (j, one)) c)) (map (map fst) rows)).
    { rewrite !map_map. apply map_ext. intro r. unfold ones. rewrite map_map. reflexivity. }
    rewrite Q. reflexivity.
Qed.

(** C86 without normalisation: exactly the columns in which a token falls hold 1.
    The result is a plain list of dicts and not a sparse matrix. *)
Theorem C86_partial : forall (m : libm) (U : textlib) (v : hashvec) an docs fss hss,
  hv_binary v = true -> hv_norm v = None -> 1 <= hv_nfeat v < 2 ^ 31 -> docs <> [] -> build_analyzer U (hv_conf v) = Ok an ->
  Forall2 (fun d fs => an d = Ok fs) docs fss -> Forall (Forall (fun t => Forall (fun c => 0 <= c < 1114112) t /\ Z.of_nat (length t) < 2 ^ 30)) fss ->
  Forall2 (Forall2 feature_hash) fss hss ->
  exists rows, hashvec_transform (A:=F64 m) U v (RawDocs docs) = Ok (Arr (map Di rows)) /\
    Forall2 (fun hs r => NoDup (map fst r) /\ forall j x, In (j, x) r <-> x = one /\ exists h, In h hs /\ column (hv_nfeat v) h = j) hss rows.
Proof.
  intros m U v an docs fss hss HB HM HN ND HA HF HU HH. destruct (binary_rows m U v an docs fss hss HB HN ND HA HF HU HH) as (colss & F & E). rewrite HM in E.
  exists (map (fun c => map (fun j => (j, one : F64 m)) c) colss). split; [rewrite map_map; exact E|]. apply Forall2_map_r. eapply Forall2_imp; [|exact F]. cbn beta. intros hs c [N H]. split.
  - rewrite map_map. cbn [fst]. rewrite map_id. exact N.
  - intros j x. rewrite in_map_iff. split.
    + intros (j' & Q & I). injection Q as <- <-. split; auto. apply H; auto.
    + intros [-> Q]. exists j. split; auto. apply H; auto.
Qed.
Print Assumptions C86_partial.

(** C86 with the l1 or max norm: what is normalised is the list of *column
    numbers* of each document, in a plain list of lists. *)
Theorem C86_numbers : forall (m : libm) (U : textlib) (v : hashvec) an docs fss hss nm,
  hv_binary v = true -> hv_norm v = Some nm -> nm = lit "l1" \/ nm = lit "max" -> 1 <= hv_nfeat v < 2 ^ 31 -> docs <> [] -> build_analyzer U (hv_conf v) = Ok an ->
  Forall2 (fun d fs => an d = Ok fs) docs fss -> Forall (Forall (fun t => Forall (fun c => 0 <= c < 1114112) t /\ Z.of_nat (length t) < 2 ^ 30)) fss ->
  Forall2 (Forall2 feature_hash) fss hss ->
  exists colss, Forall2 (columns_hit (hv_nfeat v)) hss colss /\
    hashvec_transform (A:=F64 m) U v (RawDocs docs) = normalizer_transform nm (ll (map (map ofZ) colss)).
Proof.
  intros m U v an docs fss hss nm HB HM Hnm HN ND HA HF HU HH. destruct (binary_rows m U v an docs fss hss HB HN ND HA HF HU HH) as (colss & F & E). rewrite HM in E.
  exists colss. split; auto. rewrite E. clear E. cbn zeta.
  assert (NC : colss <> []) by (destruct docs; [congruence|]; inversion HF; subst; inversion HH; subst; inversion F; discriminate).
  assert (EI : forall c : list Z, iter_item (Di (T:=F64 m) (map (fun j => (j, one)) c)) = Ok (map ofZ c)).
  { intro c. cbn [iter_item]. rewrite map_map. reflexivity. }
  destruct colss as [|c0 cs]; [congruence|]. set (colss := c0 :: cs).
  unfold normalizer_transform. assert (C1 : check_array (A:=F64 m) (ll (map (map ofZ) colss)) HAllow = Ok (ll (map (map ofZ) colss))) by reflexivity.
  assert (C2 : check_array (A:=F64 m) (Arr (map (fun c => Di (map (fun j => (j, one)) c)) colss)) HAllow = Ok (Arr (map (fun c => Di (map (fun j => (j, one)) c)) colss))) by reflexivity.
  rewrite C1. cbn [bind]. unfold normalize_pure, normalize_full. rewrite C1, C2. cbn [issparse ll andb negb guard bind Z.eqb Pos.eqb orb].
  assert (EN : norms_of (Arr (map (fun c => Di (T:=F64 m) (map (fun j => (j, one)) c)) colss)) nm = norms_of (ll (map (map ofZ) colss)) nm).
  { assert (N2 : str_eqb nm (lit "l2") = false) by (destruct Hnm as [-> | ->]; reflexivity). unfold norms_of. rewrite N2. destruct (str_eqb nm (lit "l1")).
    - cbn [issparse ll]. unfold apply_2d. cbn [issparse items bind ll]. rewrite !mapM_map. f_equal. apply mapM_ext. intros c _. rewrite EI. reflexivity.
    - cbn [issparse ll]. unfold apply_axis_2d. unfold ll. cbn [issparse items bind andb Z.eqb Pos.eqb]. rewrite !mapM_map. apply mapM_ext. intros c _. rewrite EI. reflexivity. }
  assert (ES : forall ns, scale_rows (Arr (map (fun c => Di (T:=F64 m) (map (fun j => (j, one)) c)) colss)) ns = scale_rows (ll (map (map ofZ) colss)) ns).
  { intro ns. unfold scale_rows, ll. cbn [items bind]. rewrite !map_length. f_equal. apply mapM_ext. intros i _. unfold lnth. rewrite !nth_error_map'. destruct (nth_error colss i) as [c|]; [|reflexivity]. cbn [option_map bind]. rewrite EI. reflexivity. }
  destruct (mem str_eqb nm [lit "l1"; lit "l2"; lit "max"]); [|reflexivity]. cbn [guard bind]. 
  rewrite EN. unfold ll. destruct (norms_of (Arr (map Ls (map (map ofZ) colss))) nm) as [ns|]; [|reflexivity]. cbn [bind]. rewrite (ES (handle_zeros ns)). reflexivity.
Qed.
Print Assumptions C86_numbers.

(** C86 with the l2 norm, the default: KeyError as soon as some document does not
    hit all of the columns 0 .. k-1, for k the number of columns that the first
    document hits. *)
Theorem C86_key_error : forall (m : libm) (U : textlib) (v : hashvec) an docs fss hss,
  hv_binary v = true -> hv_norm v = Some (lit "l2") -> 1 <= hv_nfeat v < 2 ^ 31 -> docs <> [] -> build_analyzer U (hv_conf v) = Ok an ->
  Forall2 (fun d fs => an d = Ok fs) docs fss -> Forall (Forall (fun t => Forall (fun c => 0 <= c < 1114112) t /\ Z.of_nat (length t) < 2 ^ 30)) fss ->
  Forall2 (Forall2 feature_hash) fss hss ->
  (exists h0 hs c0 j, nth_error hss 0 = Some h0 /\ columns_hit (hv_nfeat v) h0 c0 /\ In hs hss /\ 0 <= j < Z.of_nat (length c0) /\ forall h, In h hs -> column (hv_nfeat v) h <> j) ->
  hashvec_transform (A:=F64 m) U v (RawDocs docs) = Err KeyError.
Proof.
  intros m U v an docs fss hss HB HM HN ND HA HF HU HH (h0 & hs & c0 & j & H0 & C0 & Hin & Hj & NH). destruct (binary_rows m U v an docs fss hss HB HN ND HA HF HU HH) as (colss & F & E). rewrite HM in E. rewrite E. clear E. cbn zeta.
  destruct F as [|h1 c1 hss colss F1 F]; [destruct Hin|]. cbn in H0. injection H0 as ->.
  assert (L1 : length c1 = length c0).
  { destruct F1 as [N1 I1]. destruct C0 as [N0 I0]. apply Nat.le_antisymm; apply NoDup_incl_length; auto; intros z Hz; [apply I0, I1|apply I1, I0]; auto. }
  assert (BAD : exists c, In c (c1 :: colss) /\ ~ In j c).
  { assert (FF : Forall2 (columns_hit (hv_nfeat v)) (h0 :: hss) (c1 :: colss)) by (constructor; auto). apply In_nth_error in Hin. destruct Hin as [i Hi]. pose proof (Forall2_len _ _ _ FF) as LF.
    apply Forall2_nth_error in FF. destruct FF as [_ FF]. destruct (nth_error (c1 :: colss) i) as [c|] eqn:Hc; [|apply nth_error_None in Hc; apply nth_error_lt in Hi; lia].
    destruct (FF i hs c Hi Hc) as [_ Q]. exists c. split; [eapply nth_error_In; eauto|]. intro I. apply Q in I. destruct I as (h & Hh & Ec). exact (NH h Hh Ec). }
  unfold normalize_pure, normalize_full. set (X := Arr (map (fun c => Di (T:=F64 m) (map (fun j => (j, one)) c)) (c1 :: colss))).
  assert (C2 : check_array (A:=F64 m) X HAllow = Ok X) by reflexivity. rewrite C2. cbn [issparse X andb negb guard bind Z.eqb Pos.eqb orb].
  change (mem str_eqb (lit "l2") [lit "l1"; lit "l2"; lit "max"]) with true. cbn [guard bind].
  assert (EN : norms_of X (lit "l2") = Err KeyError); [|fold X; rewrite EN; reflexivity].
  unfold norms_of. change (str_eqb (lit "l2") (lit "l1")) with false. change (str_eqb (lit "l2") (lit "l2")) with true. cbn [negb]. unfold row_norms.
  assert (EM : matmult_same_dim X X = Err KeyError); [|rewrite EM; reflexivity].
  unfold matmult_same_dim. assert (SH : shape X = Ok (S2 (Z.of_nat (length (c1 :: colss))) (Some (Z.of_nat (length c1))))).
  { unfold shape, X. cbn. rewrite !map_length. reflexivity. }
  rewrite SH. cbn [bind]. assert (SE : forall a b, shp_eqb (S2 a (Some b)) (S2 a (Some b)) = true) by (intros; cbn; rewrite !Z.eqb_refl; reflexivity). rewrite SE. cbn [guard bind issparse X Bool.eqb items].
  rewrite Nat2Z.id. match goal with |- context [mapM ?f ?l] => assert (EF : mapM f l = Err KeyError) end; [|rewrite EF; reflexivity].
  assert (G : forall T (f : nat -> res T) l, (forall i, In i l -> (exists y, f i = Ok y) \/ f i = Err KeyError) -> (exists i, In i l /\ f i = Err KeyError) -> mapM f l = Err KeyError).
  { intros T f l. induction l as [|i l IH]; intros A1 (k & Hk & Ek); [destruct Hk|]. cbn [mapM]. destruct (A1 i (or_introl eq_refl)) as [[y Ey]|Ey]; rewrite Ey; [|reflexivity]. cbn [bind]. rewrite IH; [reflexivity|intros; apply A1; right; auto|]. destruct Hk as [<-|Hk]; [congruence|eauto]. }
  assert (GZ : forall T (f : Z -> res T) l, (forall i, In i l -> (exists y, f i = Ok y) \/ f i = Err KeyError) -> (exists y, mapM f l = Ok y) \/ mapM f l = Err KeyError).
  { intros T f l. induction l as [|i l IH]; intro A1; [left; eexists; reflexivity|]. cbn [mapM]. destruct (A1 i (or_introl eq_refl)) as [[y Ey]|Ey]; rewrite Ey; [|right; reflexivity]. cbn [bind]. destruct IH as [[y' ->]| ->]; [intros; apply A1; right; auto|left; eexists; reflexivity|right; reflexivity]. }
  assert (GE : forall T (f : Z -> res T) l, (forall i, In i l -> (exists y, f i = Ok y) \/ f i = Err KeyError) -> (exists i, In i l /\ f i = Err KeyError) -> mapM f l = Err KeyError).
  { intros T f l. induction l as [|i l IH]; intros A1 (k & Hk & Ek); [destruct Hk|]. cbn [mapM]. destruct (A1 i (or_introl eq_refl)) as [[y Ey]|Ey]; rewrite Ey; [|reflexivity]. cbn [bind]. rewrite IH; [reflexivity|intros; apply A1; right; auto|]. destruct Hk as [<-|Hk]; [congruence|eauto]. }
  assert (CELL : forall c k, (exists y, item_get (Di (T:=F64 m) (map (fun j => (j, one)) c)) k = Ok y) \/ item_get (Di (T:=F64 m) (map (fun j => (j, one)) c)) k = Err KeyError).
  { intros c k. cbn [item_get]. unfold dget. destruct (dlookup Z.eqb k _); eauto. }
  apply G.
  - intros i Hi. unfold range in Hi. apply in_seq in Hi. destruct (nth_error (c1 :: colss) i) as [c|] eqn:Hc; [|apply nth_error_None in Hc; lia].
    unfold lnth. rewrite nth_error_map', Hc. cbn [option_map bind]. apply GZ. intros k _. destruct (CELL c k) as [[y ->]| ->]; [left; eexists; reflexivity|right; reflexivity].
  - destruct BAD as (c & Hc & NJ). apply In_nth_error in Hc. destruct Hc as [i Hi]. exists i. split; [unfold range; apply in_seq; apply nth_error_lt in Hi; lia|].
    unfold lnth. rewrite nth_error_map', Hi. cbn [option_map bind]. apply GE.
    + intros k _. destruct (CELL c k) as [[y ->]| ->]; [left; eexists; reflexivity|right; reflexivity].
    + exists j. split; [apply in_zrange; lia|]. assert (Q : item_get (Di (T:=F64 m) (map (fun j => (j, one)) c)) j = Err KeyError); [|rewrite Q; reflexivity].
      cbn [item_get]. unfold dget. replace (dlookup Z.eqb j (map (fun j0 => (j0, @one (F64 m))) c)) with (@None (F64 m)); [reflexivity|]. symmetry. apply (dlookup_none Z.eqb Zeqb_ok). unfold dkeys. rewrite map_map. cbn [fst]. rewrite map_id. exact NJ.
Qed.
Print Assumptions C86_key_error.

(** Hence C86 is false: the default settings raise, and with the l1 norm the
    document "dog cat" is not two equal weights. *)
Definition ex_bin (n : Z) (nm : option pystr) : hashvec := {| hv_conf := ex_conf "word" 1 1 SWNone; hv_nfeat := n; hv_binary := true; hv_norm := nm; hv_alt := true; hv_dtype := DFloat |}.
Theorem C86_refuted : forall m : libm,
  hashvec_transform (A:=F64 m) ex_lib (ex_bin 1048576 (Some (lit "l2"))) (RawDocs [DocStr (lit "dog cat")]) = Err KeyError /\
  exists a b : F64 m, hashvec_transform (A:=F64 m) ex_lib (ex_bin 8 (Some (lit "l1"))) (RawDocs [DocStr (lit "dog cat")]) = Ok (ll [[a; b]]) /\ eqb a b = false.
Proof.
  intro m. split; [vm_compute; reflexivity|].
  destruct (hashvec_transform (A:=F64 m) ex_lib (ex_bin 8 (Some (lit "l1"))) (RawDocs [DocStr (lit "dog cat")])) as [X|] eqn:E; [|exfalso].
  - assert (Q : match X with Arr [Ls [a; b]] => eqb (a : F64 m) b = false | _ => False end).
    { assert (G : match hashvec_transform (A:=F64 m) ex_lib (ex_bin 8 (Some (lit "l1"))) (RawDocs [DocStr (lit "dog cat")]) with Ok (Arr [Ls [a; b]]) => eqb (a : F64 m) b = false | _ => False end) by (vm_compute; reflexivity). rewrite E in G. exact G. }
    destruct X as [[|[|[|a [|b []]]|] []]| | |]; try contradiction. exists a, b. auto.
  - assert (G : is_ok (hashvec_transform (A:=F64 m) ex_lib (ex_bin 8 (Some (lit "l1"))) (RawDocs [DocStr (lit "dog cat")])) = true) by (vm_compute; reflexivity). rewrite E in G. discriminate.
Qed.
Print Assumptions C86_refuted.

(** Without normalisation a batch is its parts one after the other (the case of
    C50 that C50_transform_partial leaves out). *)
Theorem C50_hashing_binary_partial : forall (A : arith) (U : textlib) (V : Type) (h : hashvec) Ds (Y : data A V),
  hv_binary h = true -> hv_norm h = None -> Ds <> [] -> Forall (fun D : list doc => D <> []) Ds ->
  let f := fun D => Z <- hashvec_transform (A:=A) U h (RawDocs D) ;; Ok (DNum Z) in
  (f (concat Ds) = Ok Y <-> exists Ys, each f Ds Ys /\ joined_dicts Ys Y).
Proof.
  intros A U V h Ds Y HB HM N HN f.
  pose (one_row := fun d => an <- build_analyzer U (hv_conf h) ;; validate_hasher (hv_nfeat h) (lit "string") ;; guard (0 <? hv_nfeat h) AssertionError ;;
    x <- (x <- an d ;; Ok (map (fun f => (f, FNum (one : A))) x)) ;; r <- hash_row (hv_nfeat h) (hv_alt h) 0 x ;; Ok (ones r)).
  assert (G : forall D, D <> [] -> oke (f D) (R <- mapM one_row D ;; Ok (DNum (Arr (map Di R))))).
  { intros D ND. unfold f, hashvec_transform. rewrite HB, HM.
    destruct (build_analyzer U (hv_conf h)) as [an|e] eqn:EA; cbn [bind].
    2:{ destruct D; [congruence|]. cbn [mapM]. unfold one_row at 1. apply oke_err. }
    unfold hasher_transform_string, hashing_transform.
    destruct (validate_hasher (hv_nfeat h) (lit "string")) as [tt1|e1] eqn:EV; cbn [bind].
    2:{ destruct D; [congruence|]. cbn [mapM]. unfold one_row at 1. cbn [bind]. apply oke_err. }
    destruct (guard (0 <? hv_nfeat h) AssertionError) as [tt2|e2] eqn:EG; cbn [bind].
    2:{ destruct D; [congruence|]. cbn [mapM]. unfold one_row at 1. intro z; split; intro QQ; cbn in QQ; discriminate QQ. }
    assert (Q : mapM one_row D = (R <- mapM (fun d => x <- (x <- an d ;; Ok (map (fun f => (f, FNum (one : A))) x)) ;; hash_row (hv_nfeat h) (hv_alt h) 0 x) D ;; Ok (map ones R))).
    { rewrite oke_comp_map. apply mapM_ext. intros d _. unfold one_row. cbn [bind]. rewrite !bind_assoc. reflexivity. }
    rewrite Q, !mapM_map, !bind_assoc. apply oke_bind_r. intros R ER. assert (NR := mapM_ne _ _ _ ND ER).
    rewrite sparse_ne by auto. cbn [bind]. rewrite binarize_sp. apply oke_refl. }
  clearbody one_row. split.
  - intro E. apply G in E; [|destruct HN as [|D Ds' HD HN]; [congruence|]; destruct D; [congruence|discriminate]]. nb E R ER. injection E as <-.
    apply mapM_concat in ER. destruct ER as (Rs & ER & ->). exists (map (fun R => DNum (Arr (map Di R))) Rs). split.
    + unfold each. clear N. revert HN. induction ER as [|D R Ds Rs E1 E2 IH]; intro HN; cbn; constructor; inversion HN; subst; auto. apply G; auto. rewrite E1. auto.
    + constructor; [destruct ER; [congruence|discriminate]|]. clear N. revert HN. induction ER as [|D R Ds Rs E1 E2 IH]; intro HN; constructor; inversion HN; subst; auto. eapply mapM_ne; eauto.
  - intros (Ys & E1 & E2). apply G; [destruct HN as [|D Ds' HD HN]; [congruence|]; destruct D; [congruence|discriminate]|].
    assert (H : exists Rs, Forall2 (fun D R => mapM one_row D = Ok R) Ds Rs /\ Ys = map (fun R => DNum (Arr (map Di R))) Rs).
    { clear N E2. revert HN. induction E1 as [|D Q Ds Qs E1 E2 IH]; intro HN; [exists []; auto|]. inversion HN; subst. apply G in E1; auto. nb E1 R F. injection E1 as <-. destruct (IH H2) as (Rs & I1 & ->). exists (R :: Rs). auto. }
    destruct H as (Rs & H1 & ->). inversion E2 as [Rs' NR HR E3 E4]. rewrite (proj2 (mapM_concat one_row Ds (concat Rs))) by eauto. cbn [bind].
    assert (Rs' = Rs); [|subst; auto]. eapply map_inj; [|exact E3]. intros x y Q. injection Q as Q. eapply map_inj; [|exact Q]. congruence.
Qed.
Print Assumptions C50_hashing_binary_partial.

(** Documents and hashes that meet the hypotheses above. *)
Definition shown_dicts {m : libm} (x : res (arr (F64 m))) : res (list (list (Z * res Z))) :=
  match x with Ok (Arr l) => mapM (fun r => match r with Di d => Ok (map (fun kv => (fst kv, toZ (snd kv))) d) | _ => Err TypeError end) l | Ok _ => Err TypeError | Err e => Err e end.
Example C86_ex : forall m : libm, exists an hs, build_analyzer ex_lib (hv_conf (ex_bin 8 None)) = Ok an /\ an (DocStr (lit "dog cat")) = Ok [lit "dog"; lit "cat"] /\
  Forall2 feature_hash [lit "dog"; lit "cat"] hs /\ map (column 8) hs = [5; 7] /\
  shown_dicts (hashvec_transform (A:=F64 m) ex_lib (ex_bin 8 None) (RawDocs [DocStr (lit "dog cat")])) = Ok [[(5, Ok 1); (7, Ok 1)]] /\
  exists j, 0 <= j < 2 /\ forall h, In h hs -> column 8 h <> j.
Proof.
  intro m. destruct (build_analyzer ex_lib (hv_conf (ex_bin 8 None))) as [an|] eqn:EA; [|vm_compute in EA; discriminate]. 
  destruct (hash (lit "dog") 0) as [h1|e] eqn:E1; [|vm_compute in E1; discriminate]. destruct (hash (lit "cat") 0) as [h2|e] eqn:E2; [|vm_compute in E2; discriminate].
  exists an, [h1; h2]. split; auto. split.
  - assert (Q : match build_analyzer ex_lib (hv_conf (ex_bin 8 None)) with Ok an => an (DocStr (lit "dog cat")) | Err e => Err e end = Ok [lit "dog"; lit "cat"]) by (vm_compute; reflexivity). rewrite EA in Q. exact Q.
  - split; [constructor; [|constructor; [|constructor]]; apply feature_hash_ok; auto; try (repeat constructor; cbn; lia); cbn; lia|].
    vm_compute in E1, E2. injection E1 as <-. injection E2 as <-. split; [vm_compute; reflexivity|]. split; [vm_compute; reflexivity|].
    exists 0. split; [lia|]. intros h [<-|[<-|[]]]; vm_compute; discriminate.
Qed.
