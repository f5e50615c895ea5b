(** C45-C47: DictVectorizer and the feature hasher. *)
From Coq Require Import String Lia.
From Verif Require Import Model.Py Model.Arith Model.F64 Model.Utils Model.Base Model.Preprocessing Model.Hash Model.DictVec Model.Text.
From Verif Require Import Spec.Matrix Spec.Text Spec.Features.
From Verif Require Import Proofs.Lib Proofs.Laws Proofs.Arrays Proofs.Features Props.Text.
Local Open Scope Z_scope.

Lemma zero_is0 : forall A, arith_ok A -> is0 (zero : A).
Proof. intros A OK. unfold is0. pose proof (o_nan _ OK (zero : A)) as E. rewrite (a_zero _ OK) in E. destruct (eqb (zero : A) zero); auto. Qed.

(** C45.  Sparse output: row by row, the column of each vocabulary entry holds
    what the mapping says about it, and no other column is stored. *)
Theorem C45_sparse : forall (A : arith), arith_ok A -> forall (d : dictvec) (xs : list (dict pystr (fval A))),
  vocabulary (dv_vocab d) -> dv_dtype d = DFloat -> dv_sparse d = true -> xs <> [] ->
  exists rows, dv_transform d (Maps xs) = Ok (Sp rows (Some (Z.of_nat (length (dv_vocab d)))) DFloat) /\
    Forall2 (fun x r => term_row (dv_vocab d) (setting (dv_sep d) x) r) xs rows.
Proof.
  intros A OK d xs V HD HS N. exists (map (fun x => dict_of Z.eqb (cells (dv_vocab d) (named (dv_sep d) x))) xs). split.
  - unfold dv_transform. rewrite (mapM_pure (dv_row d) (fun x => dict_of Z.eqb (cells (dv_vocab d) (named (dv_sep d) x)))) by (intros x _; apply dv_row_ok; auto).
    cbn [bind]. rewrite HS, HD. destruct xs; [congruence|]. reflexivity.
  - apply Forall2_map_r, Forall2_diag. intros x _. apply (cells_term_row (A:=A)); auto. apply zero_is0; auto.
Qed.
Print Assumptions C45_sparse.

(** Dense output: one row per mapping, one cell per vocabulary entry, with the
    same numbers (a zero may change its sign). *)
Theorem C45_dense : forall (A : arith), arith_ok A -> forall (d : dictvec) (xs : list (dict pystr (fval A))),
  vocabulary (dv_vocab d) -> dv_dtype d = DFloat -> dv_sparse d = false -> xs <> [] ->
  exists D, dv_transform d (Maps xs) = Ok (ll D) /\ rect D (length xs) (length (dv_vocab d)) /\
    forall i x t j, nth_error xs i = Some x -> In (t, j) (dv_vocab d) ->
      exists w, cell D i (Z.to_nat j) = Some w /\ same_cell (setting (dv_sep d) x t) w.
Proof.
  intros A OK d xs V HD HS N.
  set (d' := {| dv_vocab := dv_vocab d; dv_sparse := true; dv_dtype := dv_dtype d; dv_sep := dv_sep d |}).
  destruct (C45_sparse A OK d' xs V HD eq_refl N) as (rows & E & T). cbn [dv_vocab dv_sep d'] in T, E.
  exists (map (fun row => map (fun i => dget_default Z.eqb row i zero) (zrange 0 (Z.of_nat (length (dv_vocab d))))) rows).
  split.
  - unfold dv_transform in *. change (dv_row d) with (dv_row (A:=A) d'). cbn [dv_vocab dv_dtype d' dv_sparse] in E. inv_bind E. rewrite E0. cbn [bind]. inv_bind E. rewrite E1. cbn [bind]. rewrite HS. injection E as ->.
    cbn [todense]. unfold dzero. rewrite mapM_Ok. reflexivity.
  - split; [split|].
    + rewrite map_length. symmetry. eapply Forall2_len; eauto.
    + apply Forall_forall. intros x Hx. apply in_map_iff in Hx. destruct Hx as (r & <- & _). rewrite map_length, zrange_length. lia.
    + intros i x t j Hi It. destruct (proj1 (Forall2_nth_error _ _ _) T) as [LT TT]. destruct (nth_error_len rows xs i x (eq_sym LT) Hi) as [r Hr].
      specialize (TT i x r Hi Hr). pose proof (proj2 (proj2 V) t j It) as J. unfold cell. rewrite nth_error_map', Hr. cbn [option_map].
      rewrite nth_error_map', nth_error_zrange. replace (_ <? _) with true by (symmetry; apply Z.ltb_lt; lia). cbn [option_map]. eexists. split; [reflexivity|].
      replace (0 + Z.of_nat (Z.to_nat j)) with j by lia. eapply term_row_get; eauto. apply zero_is0; auto.
Qed.
Print Assumptions C45_dense.

(** A single mapping is a one-row input, whatever the converter's settings; no
    mappings at all is an IndexError. *)
Theorem C45_single : forall (A : arith) (d : dictvec) (x : dict pystr (fval A)), dv_transform d (OneMap x) = dv_transform d (Maps [x]) /\
  dv_transform (A:=A) d (Maps []) = Err IndexError.
Proof. split; reflexivity. Qed.
Print Assumptions C45_single.
Example C45_ex : forall m : libm, let d := {| dv_vocab := [(lit "age", 0); (lit "city=Rome", 1); (lit "city=Oslo", 2)]; dv_sparse := true; dv_dtype := DFloat; dv_sep := lit "=" |} in
  vocabulary (dv_vocab d) /\
  shown_sp (dv_transform (A:=F64 m) d (Maps [[(lit "city", FStr (lit "Oslo")); (lit "age", FNum (ofZ 7))]; [(lit "x", FNum one)]])) = Ok [[(2, Ok 1); (0, Ok 7)]; []].
Proof.
  intros m d. split; [|vm_compute; reflexivity]. split; [repeat constructor; cbn; intuition discriminate|]. split; [repeat constructor; cbn; intuition discriminate|].
  intros t j [E|[E|[E|[]]]]; injection E as <- <-; cbn; lia.
Qed.

(** C46.  The hash of a byte string is MurmurHash3_x86_32, for every length a
    32-bit length can tell. *)
Theorem C46_murmur3 : forall key seed, Forall (fun b => 0 <= b < 256) key -> 0 <= seed < 2 ^ 32 -> Z.of_nat (length key) < 2 ^ 32 ->
  hash_bytes key seed = signed (murmur3 key seed).
Proof. intros key seed F S L. apply hash_bytes_ok; auto. Qed.
Print Assumptions C46_murmur3.
(** ... and a signed 32-bit number for every length whatever, so that the
    column index is in range for every width. *)
Theorem C46_range : forall key seed n, 0 < n -> - 2 ^ 31 <= hash_bytes key seed < 2 ^ 31 /\ 0 <= column n (hash_bytes key seed) < n.
Proof. intros key seed n H. split; [apply hash_range|]. unfold column. apply Z.mod_pos_bound. auto. Qed.
Print Assumptions C46_range.
(** On text, the bytes are its UTF-8 encoding; a lone surrogate is the only
    thing that cannot be hashed. *)
Theorem C46_text : forall t h, Forall (fun c => 0 <= c < 1114112) t -> Z.of_nat (length t) < 2 ^ 30 ->
  (hash t 0 = Ok h <-> feature_hash t h).
Proof. intros. apply feature_hash_ok; auto. Qed.
Print Assumptions C46_text.
Theorem C46_text_total : forall t, Forall (fun c => 0 <= c < 1114112) t ->
  (Forall (fun c => ~ 55296 <= c <= 57343) t -> exists h, hash t 0 = Ok h) /\
  (~ Forall (fun c => ~ 55296 <= c <= 57343) t -> hash t 0 = Err UnicodeError).
Proof.
  intros t F. unfold hash, utf8.
  assert (Q : forall c, 0 <= c < 1114112 -> (~ 55296 <= c <= 57343 -> exists bs, utf8_char c = Ok bs) /\ (55296 <= c <= 57343 -> utf8_char c = Err UnicodeError)).
  { intros c Hc. unfold utf8_char. split; intro H.
    - destruct (c <? 128); [eauto|]. destruct (c <? 2048); [eauto|]. destruct (Z.leb_spec 55296 c); destruct (Z.leb_spec c 57343); cbn [andb]; try (destruct (c <? 65536); eauto); lia.
    - destruct (Z.ltb_spec c 128); [lia|]. destruct (Z.ltb_spec c 2048); [lia|]. destruct (Z.leb_spec 55296 c); destruct (Z.leb_spec c 57343); cbn [andb]; try lia. auto. }
  split; intro H.
  - destruct (mapM_total utf8_char t) as [r E]; [|rewrite E; cbn [bind]; eauto]. intros c Hc. rewrite Forall_forall in F, H. apply Q; auto.
  - assert (E : mapM utf8_char t = Err UnicodeError); [|rewrite E; auto]. revert H. induction F as [|c t Hc F IH]; intro H; [exfalso; apply H; constructor|]. cbn [mapM].
    destruct (Q c Hc) as [Q1 Q2]. destruct (Z_le_dec 55296 c); [destruct (Z_le_dec c 57343); [rewrite Q2 by lia; auto|]|]; (destruct Q1 as [bs ->]; [lia|]; cbn [bind]; rewrite IH; auto; intro G; apply H; constructor; auto; lia).
Qed.
Print Assumptions C46_text_total.
(** Published test vectors: "", "" with seed 1, "test", "Hello, world!" with
    seed 0x9747b28c, "aaaa", "The quick brown fox jumps over the lazy dog". *)
Example C46_ex : map (fun ks => murmur3 (fst ks) (snd ks))
    [([], 0); ([], 1); (lit "test", 0); (lit "Hello, world!", 2538058380); (lit "aaaa", 2538058380); (lit "The quick brown fox jumps over the lazy dog", 2538058380)] =
  [0; 0x514E28B7; 0xba6bd213; 0x24884CBA; 0x5A97808A; 0x2FA826CD].
Proof. vm_compute. reflexivity. Qed.
Example C46_ex_text : feature_hash (lit "test") (-1167338989) /\ hash (lit "test") 0 = Ok (-1167338989).
Proof. assert (E : hash (lit "test") 0 = Ok (-1167338989)) by (vm_compute; reflexivity). split; auto. apply feature_hash_ok; auto; [repeat constructor; cbn; lia|cbn; lia]. Qed.

(** C47 is false: a repeated token counts once. *)
Definition ex_hv (n : Z) : hashvec := {| hv_conf := ex_conf "word" 1 1 SWNone; hv_nfeat := n; hv_binary := false; hv_norm := None; hv_alt := false; hv_dtype := DFloat |}.
Theorem C47_refuted : forall m : libm, exists h, feature_hash (lit "dog") h /\
  shown_sp (hashvec_transform (A:=F64 m) ex_lib (ex_hv 8) (RawDocs [DocStr (lit "dog dog")])) = Ok [[(column 8 h, Ok 1)]].
Proof.
  intro m. destruct (hash (lit "dog") 0) as [h|e] eqn:E; [|vm_compute in E; discriminate]. exists h. split.
  - apply feature_hash_ok; auto; [repeat constructor; cbn; lia|cbn; lia].
  - vm_compute in E. injection E as <-. vm_compute. reflexivity.
Qed.
Print Assumptions C47_refuted.

(** What the vectorizer does, exactly (binary=False): a column is stored when
    some token falls in it, and holds the sign of the last such token (1 with
    alternate_sign=False).  Hence the claim holds for every column in which at
    most one token falls. *)
Theorem C47_partial : forall (m : libm) (U : textlib) (v : hashvec) an docs fss hss,
  hv_binary v = false -> 1 <= hv_nfeat v < 2 ^ 31 -> docs <> [] -> build_analyzer U (hv_conf v) = Ok an ->
  Forall2 (fun d fs => an d = Ok fs) docs fss -> Forall (Forall (fun t => Forall (fun c => 0 <= c < 1114112) t /\ Z.of_nat (length t) < 2 ^ 30)) fss ->
  Forall2 (Forall2 feature_hash) fss hss ->
  exists rows, hashvec_transform (A:=F64 m) U v (RawDocs docs) =
      (let X := Sp rows (Some (hv_nfeat v)) (hv_dtype v) in match hv_norm v with None => Ok X | Some nm => normalize_pure X nm 1 end) /\
    Forall2 (fun hs r => NoDup (map fst r) /\
      forall j, match last_of Z.eq_dec j (map (fun h => (column (hv_nfeat v) h, h)) hs) with
                | None => ~ In j (map fst r)
                | Some h => In (j, if hv_alt v then ofZ (if 0 <=? h then 1 else -1) else one) r
                end) hss rows.
Proof.
  intros m U v an docs fss hss HB HN ND HA HF HU HH. set (n := hv_nfeat v) in *. set (alt := hv_alt v).
  exists (map (fun hs => dict_of Z.eqb (map (fun h => slot (A:=F64 m) n alt h one) hs)) hss). split.
  - unfold hashvec_transform. rewrite HA. cbn [bind]. rewrite HB. unfold hasher_transform_string, validate_hasher. fold n. fold alt.
    replace (negb ((n <? 1) || (2147483648 <=? n))) with true by (destruct (Z.ltb_spec n 1); [lia|]; destruct (Z.leb_spec 2147483648 n); [lia|auto]).
    change (mem str_eqb (lit "string") [lit "dict"; lit "pair"; lit "string"]) with true. cbn [guard bind]. unfold hashing_transform.
    replace (0 <? n) with true by (symmetry; apply Z.ltb_lt; lia). cbn [guard bind].
    assert (E : mapM (fun rx => x <- rx ;; hash_row n alt 0 x) (map (fun rx => x <- rx ;; Ok (map (fun f => (f, FNum (one : F64 m))) x)) (map an docs)) =
      Ok (map (fun hs => dict_of Z.eqb (map (fun h => slot (A:=F64 m) n alt h one) hs)) hss)).
    { clear - HF HU HH. revert hss HH. induction HF as [|d fs docs fss E F IH]; intros hss HH; inversion HH as [|? hs ? hss' H1 H2]; subst; auto. inversion HU as [|? ? HU1 HU2]; subst.
      cbn [map mapM]. rewrite E. cbn [bind]. rewrite (hash_row_ok n alt fs hs); [cbn [bind]; rewrite (IH HU2 hss' H2); auto|reflexivity|].
      clear - H1 HU1. induction H1 as [|t h fs hs Q F IH]; constructor; inversion HU1 as [|? ? [? ?] ?]; subst; auto. apply feature_hash_ok; auto. }
    rewrite E. cbn [bind]. destruct docs; [congruence|]. inversion HF; subst. inversion HH; subst. cbn [map sparse_list bind]. destruct (hv_norm v); reflexivity.
  - apply Forall2_map_r, Forall2_diag. intros hs _. split; [apply (NoDup_dict_of Z.eqb Zeqb_ok)|]. intro j.
    assert (L : dlookup Z.eqb j (dict_of Z.eqb (map (fun h => slot (A:=F64 m) n alt h one) hs)) =
      option_map (fun h => if alt then ofZ (if 0 <=? h then 1 else -1) else one) (last_of Z.eq_dec j (map (fun h => (column n h, h)) hs))).
    { rewrite dict_of_last. induction hs as [|h hs IH]; auto. cbn [map last_of]. unfold slot at 1. rewrite IH. destruct (last_of Z.eq_dec j (map (fun h => (column n h, h)) hs)); cbn [option_map]; auto.
      destruct (Z.eq_dec (column n h) j); auto. cbn [option_map]. f_equal. destruct alt; auto. etransitivity; [apply (a_mul_comm _ (F64_ok m))|apply (a_mul_one _ (F64_ok m))]. }
    destruct (last_of Z.eq_dec j _) as [h|]; cbn [option_map] in L.
    + apply (dlookup_in Z.eqb Zeqb_ok). auto.
    + apply (dlookup_none Z.eqb Zeqb_ok). auto.
Qed.
Print Assumptions C47_partial.
(** The specification's [last_of] for a column hit once is its signed count. *)
Theorem C47_one_hit : forall n j hs,
  (hits_in n j hs = 0%nat -> last_of Z.eq_dec j (map (fun h => (column n h, h)) hs) = None /\ signed_count n j hs = 0) /\
  (hits_in n j hs = 1%nat -> exists h, last_of Z.eq_dec j (map (fun h => (column n h, h)) hs) = Some h /\ signed_count n j hs = if 0 <=? h then 1 else -1).
Proof.
  intros n j hs. induction hs as [|h hs [IH0 IH1]]; [split; [auto|discriminate]|]. cbn [hits_in signed_count map last_of]. destruct (Z.eq_dec (column n h) j); split; intro H; try discriminate.
  - destruct IH0 as [-> E]; [lia|]. exists h. split; auto. lia.
  - destruct IH0 as [-> E]; [lia|]. split; auto.
  - destruct IH1 as (h' & -> & E); [lia|]. exists h'. auto.
Qed.
Print Assumptions C47_one_hit.
Example C47_ex : forall m : libm,
  shown_sp (hashvec_transform (A:=F64 m) ex_lib {| hv_conf := ex_conf "word" 1 1 SWNone; hv_nfeat := 8; hv_binary := false; hv_norm := None; hv_alt := true; hv_dtype := DFloat |} (RawDocs [DocStr (lit "dog cat"); DocStr []])) =
  Ok [[(5, Ok (-1)); (7, Ok 1)]; []].
Proof. intro m. vm_compute. reflexivity. Qed.
