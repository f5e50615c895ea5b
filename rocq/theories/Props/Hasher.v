(** C78: the feature hasher on (name, value) pairs
    (pure_sklearn/feature_extraction/_hash.py). *)
From Coq Require Import String Lia.
From Verif Require Import Model.Py Model.Arith Model.F64 Model.Utils Model.Base Model.Hash Model.Text.
From Verif Require Import Spec.Matrix Spec.Text Spec.Features Spec.Hasher.
From Verif Require Import Proofs.Lib Proofs.Laws Proofs.Arrays Proofs.Features Props.Text Props.Features.
Local Open Scope Z_scope.

Definition feature {A : arith} (kv : pystr * fval A) : pystr * A :=
  match snd kv with FStr s => (fst kv ++ lit "=" ++ s, one) | FNum v => (fst kv, v) end.
Lemma named_cons : forall (A : arith) kv (x : list (pystr * fval A)), named (lit "=") (kv :: x) = feature kv :: named (lit "=") x.
Proof. reflexivity. Qed.

(** One row, from the pairs already seen. *)
Definition hash_from {A : arith} (n : Z) (alt : bool) (x : list (pystr * fval A)) (row : dict Z A) : res (dict Z A) :=
  foldM (fun row fv =>
             let '(f, value) := match snd fv with
                                | FStr s => (fst fv ++ lit "=" ++ s, one)
                                | FNum v => (fst fv, v)
                                end in
             if eqb value zero then Ok row
             else
               h <- hash f 0 ;;
               let index := (Z.abs h mod n)%Z in
               let value := if alt then mul value (ofZ (if (0 <=? h)%Z then 1 else -1)) else value in
               Ok (dset Z.eqb index value row)) x row.
Lemma hash_from_cons : forall (A : arith) n alt kv (x : list (pystr * fval A)) row, hash_from n alt (kv :: x) row =
  let (t, v) := feature kv in
  if eqb v zero then hash_from n alt x row
  else h <- hash t 0 ;; hash_from n alt x (dset Z.eqb (column n h) (if alt then mul v (ofZ (if 0 <=? h then 1 else -1)) else v) row).
Proof.
  intros A n alt [k [s|v]] x row; unfold hash_from, feature; cbn [foldM fst snd].
  - destruct (eqb one zero); [reflexivity|]. destruct (hash (k ++ lit "=" ++ s) 0); reflexivity.
  - destruct (eqb v zero); [reflexivity|]. destruct (hash k 0); reflexivity.
Qed.
Lemma hash_row_from : forall (A : arith) n alt (x : list (pystr * fval A)), hash_row n alt 0 x = hash_from n alt x [].
Proof. reflexivity. Qed.

Lemma hash_row_pairs : forall (A : arith) n alt (x : list (pystr * fval A)) l,
  Forall (fun tv => text_ok (fst tv)) (features x) -> Forall2 (contribution n alt) (features x) l ->
  hash_row n alt 0 x = Ok (dict_of Z.eqb l).
Proof.
  intros A n alt x. rewrite hash_row_from. unfold dict_of. generalize (@nil (Z * A)). unfold features.
  induction x as [|kv x IH]; intros row l T H; [inversion H; subst; auto|].
  rewrite named_cons in T, H. rewrite hash_from_cons. destruct (feature kv) as [t v].
  cbn [filter snd] in T, H. destruct (eqb v zero); cbn [negb] in T, H; [auto|].
  inversion T as [|? ? [T1 T2] T']; subst. inversion H as [|a b c d C H' E1 E2]; subst. destruct b as [j w]. destruct C as (h & Hh & Ej & Ew). cbn [fst snd] in *.
  rewrite (proj2 (feature_hash_ok t h T1 T2) Hh). cbn [bind fold_left fst snd]. subst. apply IH; auto.
Qed.

(** What the hasher does with pairs, exactly: a column is stored when a feature
    falls in it, and holds the contribution of the last such feature. *)
Theorem C78_pairs_partial : forall (A : arith) n dt alt (raw : list (list (pystr * fval A))) ls,
  1 <= n < 2 ^ 31 -> raw <> [] -> Forall (fun x => Forall (fun tv => text_ok (fst tv)) (features x)) raw ->
  Forall2 (fun x l => Forall2 (contribution n alt) (features x) l) raw ls ->
  exists rows, hasher_transform_pair n dt alt raw = Ok (Sp rows (Some n) dt) /\
    Forall2 (fun l r => NoDup (map fst r) /\
      forall j, match last_of Z.eq_dec j l with
                | None => ~ In j (map fst r)
                | Some v => In (j, v) r
                end) ls rows.
Proof.
  intros A n dt alt raw ls HN ND HT HC. exists (map (dict_of Z.eqb) ls). split.
  - unfold hasher_transform_pair, validate_hasher.
    replace (negb ((n <? 1) || (2147483648 <=? n))) with true by (destruct (Z.ltb_spec n 1); [lia|]; destruct (Z.leb_spec 2147483648 n); [lia|auto]).
    change (mem str_eqb (lit "pair") [lit "dict"; lit "pair"; lit "string"]) with true. cbn [guard bind]. unfold hashing_transform.
    replace (0 <? n) with true by (symmetry; apply Z.ltb_lt; lia). cbn [guard bind].
    assert (E : mapM (fun rx => x <- rx ;; hash_row n alt 0 x) (map Ok raw) = Ok (map (dict_of Z.eqb) ls)).
    { clear ND. induction HC as [|x l raw ls C HC IH]; auto. inversion HT; subst. cbn [map mapM bind].
      rewrite (hash_row_pairs A n alt x l) by auto. cbn [bind]. rewrite IH by auto. auto. }
    rewrite E. destruct HC; [congruence|]. reflexivity.
  - apply Forall2_map_r, Forall2_diag. intros l _. split; [apply (NoDup_dict_of Z.eqb Zeqb_ok)|]. intro j.
    pose proof (dict_of_last l j) as E. destruct (last_of Z.eq_dec j l).
    + apply (dlookup_in Z.eqb Zeqb_ok). auto.
    + apply (dlookup_none Z.eqb Zeqb_ok). auto.
Qed.
Print Assumptions C78_pairs_partial.

(** The value of a column in which one feature falls is that feature's
    contribution, and a column in which none falls is not stored. *)
Theorem C78_single : forall (A : arith) (l : list (Z * A)) j,
  (falling j l = [] -> last_of Z.eq_dec j l = None) /\
  (forall v, falling j l = [v] -> last_of Z.eq_dec j l = Some v).
Proof.
  intros A l j. unfold falling. induction l as [|[k v] l [IH0 IH1]]; [split; [auto|discriminate]|].
  cbn [filter fst last_of]. destruct (Z.eqb_spec k j) as [->|N]; cbn [map snd].
  - split; [discriminate|]. intros w E. injection E as -> E. rewrite IH0 by auto. destruct (Z.eq_dec j j); congruence.
  - split; [intro E; rewrite IH0 by auto|intros w E; rewrite (IH1 w E); auto]. destruct (Z.eq_dec k j); congruence.
Qed.
Print Assumptions C78_single.

(** With two features in one column the claim is false: the later one replaces
    the earlier one, where it should add to it. *)
Theorem C78_refuted : forall m : libm, exists h, feature_hash (lit "dog") h /\
  shown_sp (hasher_transform_pair (A:=F64 m) 8 DFloat false [[(lit "dog", FNum (ofZ 2)); (lit "dog", FNum (ofZ 3))]]) =
    Ok [[(column 8 h, Ok 3)]].
Proof.
  intro m. destruct (hash (lit "dog") 0) as [h|e] eqn:E; [|vm_compute in E; discriminate]. exists h. split.
  - apply feature_hash_ok; auto; [repeat constructor; cbn; lia|cbn; lia].
  - vm_compute in E. injection E as <-. vm_compute. reflexivity.
Qed.
Print Assumptions C78_refuted.

(** Tokens are pairs of value 1. *)
Theorem C78_tokens : forall (A : arith) n dt alt (raw : list (list pystr)),
  hasher_transform_string (A:=A) n dt alt (map Ok raw) =
  hasher_transform_pair n dt alt (map (map (fun f => (f, FNum one))) raw).
Proof.
  intros A n dt alt raw. unfold hasher_transform_string, hasher_transform_pair, validate_hasher.
  destruct (guard (negb ((n <? 1) || (2147483648 <=? n))) ValueError); auto. cbn [bind].
  change (mem str_eqb (lit "string") [lit "dict"; lit "pair"; lit "string"]) with true.
  change (mem str_eqb (lit "pair") [lit "dict"; lit "pair"; lit "string"]) with true. cbn [guard bind]. rewrite !map_map. reflexivity.
Qed.
Print Assumptions C78_tokens.

(** Mappings are refused: every batch of them raises NameError (IndexError when
    it is empty), whatever they hold. *)
Theorem C78_mappings : forall (A : arith) n dt alt (raw : list (list (pystr * fval A))), 1 <= n < 2 ^ 31 ->
  hasher_transform_dict n dt alt raw = Err (match raw with [] => IndexError | _ => NameError end).
Proof.
  intros A n dt alt raw HN. unfold hasher_transform_dict, validate_hasher, hashing_transform.
  replace (negb ((n <? 1) || (2147483648 <=? n))) with true by (destruct (Z.ltb_spec n 1); [lia|]; destruct (Z.leb_spec 2147483648 n); [lia|auto]).
  change (mem str_eqb (lit "dict") [lit "dict"; lit "pair"; lit "string"]) with true. cbn [guard bind].
  replace (0 <? n) with true by (symmetry; apply Z.ltb_lt; lia). cbn [guard bind]. destruct raw; reflexivity.
Qed.
Print Assumptions C78_mappings.

(** The width must be from 1 to 2^31 - 1, whatever the form of the input. *)
Theorem C78_width : forall (A : arith) n dt alt, ~ 1 <= n < 2 ^ 31 ->
  (forall raw, hasher_transform_string (A:=A) n dt alt raw = Err ValueError) /\
  (forall raw, hasher_transform_pair (A:=A) n dt alt raw = Err ValueError) /\
  (forall raw, hasher_transform_dict (A:=A) n dt alt raw = Err ValueError).
Proof.
  intros A n dt alt HN. unfold hasher_transform_string, hasher_transform_pair, hasher_transform_dict, validate_hasher.
  replace (negb ((n <? 1) || (2147483648 <=? n))) with false by (destruct (Z.ltb_spec n 1); [auto|]; destruct (Z.leb_spec 2147483648 n); [auto|lia]).
  auto.
Qed.
Print Assumptions C78_width.

(** Pairs: an empty batch raises IndexError; otherwise the only thing that can
    raise is a feature with a lone surrogate, and it always does. *)
Theorem C78_errors : forall (A : arith) n dt alt (raw : list (list (pystr * fval A))), 1 <= n < 2 ^ 31 ->
  Forall (fun x => Forall (fun tv => text_ok (fst tv)) (features x)) raw ->
  (raw = [] -> hasher_transform_pair n dt alt raw = Err IndexError) /\
  (raw <> [] -> Forall (fun x => Forall (fun tv => encodable (fst tv)) (features x)) raw ->
     exists rows, hasher_transform_pair n dt alt raw = Ok (Sp rows (Some n) dt)) /\
  (~ Forall (fun x => Forall (fun tv => encodable (fst tv)) (features x)) raw ->
     hasher_transform_pair n dt alt raw = Err UnicodeError).
Proof.
  intros A n dt alt raw HN HT. unfold hasher_transform_pair, validate_hasher, hashing_transform.
  replace (negb ((n <? 1) || (2147483648 <=? n))) with true by (destruct (Z.ltb_spec n 1); [lia|]; destruct (Z.leb_spec 2147483648 n); [lia|auto]).
  change (mem str_eqb (lit "pair") [lit "dict"; lit "pair"; lit "string"]) with true. cbn [guard bind].
  replace (0 <? n) with true by (symmetry; apply Z.ltb_lt; lia). cbn [guard bind].
  assert (Row : forall x : list (pystr * fval A), Forall (fun tv => text_ok (fst tv)) (features x) ->
    (Forall (fun tv => encodable (fst tv)) (features x) -> exists r, hash_row n alt 0 x = Ok r) /\
    (~ Forall (fun tv => encodable (fst tv)) (features x) -> hash_row n alt 0 x = Err UnicodeError)).
  { intro x. rewrite hash_row_from. generalize (@nil (Z * A)). unfold features.
    induction x as [|kv x IH]; intros row T; [split; [eexists; reflexivity|intro N; elim N; constructor]|].
    rewrite hash_from_cons. rewrite named_cons in *. destruct (feature kv) as [t v].
    cbn [filter snd] in *. destruct (eqb v zero); cbn [negb] in *; [auto|].
    inversion T as [|? ? [T1 T2] T']; subst. cbn [fst] in *. destruct (C46_text_total t T1) as [Y N].
    assert (D : encodable t \/ ~ encodable t).
    { clear. induction t as [|c t [IH|IH]]; [left; constructor| |right; intro H; inversion H; auto].
      destruct (Z_le_dec 55296 c); [destruct (Z_le_dec c 57343)|]; [right; intro H; inversion H; subst; lia|left; constructor; auto; lia|left; constructor; auto; lia]. }
    destruct D as [D|D].
    - destruct (Y D) as [h ->]. cbn [bind]. destruct (IH (dset Z.eqb (column n h) (if alt then mul v (ofZ (if 0 <=? h then 1 else -1)) else v) row) T') as [I1 I2].
      split; [intro H; inversion H; subst; auto|intro H; apply I2; intro H'; apply H; constructor; auto].
    - rewrite (N D). cbn [bind]. split; [intro H; inversion H; subst; contradiction|auto]. }
  split; [intros ->; reflexivity|].
  assert (Rows : (Forall (fun x => Forall (fun tv => encodable (fst tv)) (features x)) raw -> exists rows, mapM (fun rx => x <- rx ;; hash_row n alt 0 x) (map Ok raw) = Ok rows /\ length rows = length raw) /\
     (~ Forall (fun x => Forall (fun tv => encodable (fst tv)) (features x)) raw -> mapM (fun rx => x <- rx ;; hash_row n alt 0 x) (map Ok raw) = Err UnicodeError)).
  { induction HT as [|x raw Hx HT [I1 I2]]; [split; [exists []; auto|intro N; elim N; constructor]|]. destruct (Row x Hx) as [R1 R2]. cbn [map mapM bind].
    assert (D : Forall (fun tv => encodable (fst tv)) (features x) \/ ~ Forall (fun tv => encodable (fst tv)) (features x)).
    { destruct (hash_row n alt 0 x) as [r|e] eqn:E.
      - left. clear - Hx R2. induction Hx as [|tv l [T1 T2] Hx IH]; [constructor|].
        assert (D : encodable (fst tv) \/ ~ encodable (fst tv)).
        { clear. generalize (fst tv). intro t. induction t as [|c t [IH|IH]]; [left; constructor| |right; intro H; inversion H; auto].
          destruct (Z_le_dec 55296 c); [destruct (Z_le_dec c 57343)|]; [right; intro H; inversion H; subst; lia|left; constructor; auto; lia|left; constructor; auto; lia]. }
        destruct D as [D|D].
        + constructor; auto. apply IH. intro H. apply R2. intro H'. inversion H'; subst. auto.
        + assert (X : Ok r = Err UnicodeError) by (apply R2; intro H; inversion H; auto). discriminate.
      - right. intro H. destruct (R1 H) as [r R]. discriminate R. }
    destruct D as [D|D].
    - destruct (R1 D) as [r ->]. cbn [bind]. split.
      + intro H. inversion H; subst. destruct I1 as (rows & -> & L); auto. exists (r :: rows). cbn [bind length]. auto.
      + intro H. rewrite I2; auto.
    - rewrite (R2 D). cbn [bind]. split; [intro H; inversion H; contradiction|auto]. }
  destruct Rows as [I1 I2]. split.
  - intros NE H. destruct (I1 H) as (rows & -> & L). cbn [bind]. exists rows. destruct rows; [destruct raw; [congruence|discriminate]|reflexivity].
  - intro H. rewrite (I2 H). reflexivity.
Qed.
Print Assumptions C78_errors.

(** A string value, a zero, and two numbers: hypotheses met, result shown. *)
Definition ex_pairs (m : libm) : list (list (pystr * fval (F64 m))) :=
  [[(lit "cat", FNum (ofZ 5)); (lit "dog", FNum zero); (lit "pet", FStr (lit "ox"))]; []].
Example C78_ex : forall m : libm, shown_sp (hasher_transform_pair 8 DFloat true (ex_pairs m)) = Ok [[(7, Ok 5); (1, Ok 1)]; []].
Proof. intro m. vm_compute. reflexivity. Qed.
(** The contributions C78_pairs_partial speaks of exist for every encodable row. *)
Lemma contribution_total : forall (A : arith) n alt (l : list (pystr * A)),
  Forall (fun tv => text_ok (fst tv)) l -> Forall (fun tv => encodable (fst tv)) l -> exists k, Forall2 (contribution n alt) l k.
Proof.
  intros A n alt l T. induction T as [|[t v] l [T1 T2] T IH]; intro E; [exists []; constructor|]. inversion E as [|? ? E1 E2]; subst.
  destruct (IH E2) as [k K]. destruct (proj1 (C46_text_total t T1) E1) as [h Hh]. cbn [fst] in *.
  exists ((column n h, if alt then mul v (ofZ (if 0 <=? h then 1 else -1)) else v) :: k). constructor; auto.
  exists h. split; [apply feature_hash_ok; auto|auto].
Qed.
Example C78_ex_pairs : forall m : libm, let ok f := Forall (fun x => Forall (fun tv : pystr * F64 m => f (fst tv)) (features x)) (ex_pairs m) in
  ok text_ok /\ ok encodable /\ exists ls, Forall2 (fun x l => Forall2 (contribution 8 true) (features x) l) (ex_pairs m) ls.
Proof.
  intros m ok. assert (F : map features (ex_pairs m) = [[(lit "cat", ofZ 5); (lit "pet=ox", one)]; []]) by reflexivity.
  assert (T : ok text_ok).
  { unfold ok. apply (Forall_map (B:=list (pystr * F64 m)) features (fun l => Forall (fun tv => text_ok (fst tv)) l)). rewrite F.
    unfold text_ok. repeat constructor; cbn [fst]; try (cbn; lia). }
  assert (E : ok encodable).
  { unfold ok. apply (Forall_map (B:=list (pystr * F64 m)) features (fun l => Forall (fun tv => encodable (fst tv)) l)). rewrite F.
    unfold encodable. repeat constructor; cbn [fst]; try (cbn; lia). }
  split; auto. split; auto. unfold ok in *. clear F. induction (ex_pairs m) as [|x raw IH]; [exists []; constructor|].
  inversion T; inversion E; subst. destruct IH as [ls IH]; auto. destruct (contribution_total (F64 m) 8 true (features x)) as [l Hl]; auto. exists (l :: ls). constructor; auto.
Qed.
Example C78_ex_errors : forall m : libm, hasher_transform_pair (A:=F64 m) 8 DFloat true [[(lit "cat", FNum one)]; [([97; 55296], FNum one)]] = Err UnicodeError.
Proof. intro m. vm_compute. reflexivity. Qed.
Example C78_ex_mappings : forall m : libm, hasher_transform_dict 8 DFloat true (ex_pairs m) = Err NameError.
Proof. intro m. apply (C78_mappings (F64 m)). lia. Qed.
