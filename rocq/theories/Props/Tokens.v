(** C81: the default token pattern, and vectorizing with it. *)
From Coq Require Import String Lia.
From Verif Require Import Model.Py Model.Arith Model.F64 Model.Utils Model.Text Model.TextTools Model.Regex.
From Verif Require Import Spec.Matrix Spec.Text Spec.TextTools Proofs.Lib Proofs.Text Proofs.TextTools Proofs.Regex.
From Verif Require Props.Text.
Local Open Scope nat_scope.

(** C81.  The words of a text are its maximal runs of word characters (Spec/Text.v;
    by C40_forms every text has exactly one list of them).  The default pattern
    [(?u)\b\w\w+\b] finds those of two or more characters, in order. *)
Theorem C81_tokens : forall (word : Z -> bool) (s : pystr) ws,
  words (fun c => negb (word c)) s ws -> re_findall word (token_rx word) s = filter (fun w => 2 <=? length w) ws.
Proof. intros word s ws H. unfold re_findall. apply find_tokens; auto. cbn. discriminate. Qed.
Print Assumptions C81_tokens.
(** [(?u)\b\w+\b] finds all of them. *)
Theorem C81_short : forall (word : Z -> bool) (s : pystr) ws,
  words (fun c => negb (word c)) s ws -> re_findall word (token1_rx word) s = ws.
Proof. intros word s ws H. unfold re_findall. apply find_tokens1; auto. cbn. discriminate. Qed.
Print Assumptions C81_short.

(** Texts put side by side, with a character between them that is no word
    character, have the tokens of both. *)
Theorem C81_append : forall (word : Z -> bool) (a b : pystr) c, word c = false ->
  re_findall word (token_rx word) (a ++ c :: b) = re_findall word (token_rx word) a ++ re_findall word (token_rx word) b.
Proof.
  intros word a b c H. destruct (Text.C40_forms (fun c => negb (word c)) a) as [_ (wa & Wa & _)]. destruct (Text.C40_forms (fun c => negb (word c)) b) as [_ (wb & Wb & _)].
  rewrite (C81_tokens word a wa Wa), (C81_tokens word b wb Wb), <- filter_app. apply C81_tokens. apply words_append; auto. cbv beta. rewrite H. reflexivity.
Qed.
Print Assumptions C81_append.
(** The tokens joined by spaces have the same tokens. *)
Theorem C81_joined : forall (word : Z -> bool) (s : pystr), word 32%Z = false ->
  re_findall word (token_rx word) (joined (re_findall word (token_rx word) s)) = re_findall word (token_rx word) s.
Proof.
  intros word s H. destruct (Text.C40_forms (fun c => negb (word c)) s) as [_ (ws & W & _)]. rewrite (C81_tokens word s ws W).
  etransitivity; [apply C81_tokens; apply words_joined|].
  - cbv beta. rewrite H. reflexivity.
  - pose proof (words_wordy _ _ _ W) as F. rewrite Forall_forall in *. intros x Hx. apply filter_In in Hx. apply F. apply Hx.
  - clear. induction ws as [|w ws IH]; [reflexivity|]. cbn [filter]. destruct (2 <=? length w) eqn:E; [|exact IH]. cbn [filter]. rewrite E, IH. reflexivity.
Qed.
Print Assumptions C81_joined.

(** CountVectorizer with the default pattern and single words as features: the
    column of a term holds how often the term is one of the words of two or more
    characters of the prepared (lower-cased, accent-stripped) document, stop
    words left out. *)
Theorem C81_count_vectorizer : forall (m : libm) (U : textlib) (word : Z -> bool) (v : countvec) docs ps tss,
  default_tokens U word -> vocabulary (cv_vocab v) -> cv_binary v = false -> docs <> [] ->
  tc_analyzer (cv_conf v) = lit "word" -> tc_pattern (cv_conf v) = default_pattern -> tc_lo (cv_conf v) = 1%Z -> tc_hi (cv_conf v) = 1%Z ->
  (forall w, tc_stop (cv_conf v) <> SWStr w) ->
  Forall2 (prepared U (cv_conf v)) docs ps ->
  Forall2 (fun p ts => exists ws, words (fun c => negb (word c)) p ws /\
             match tc_stop (cv_conf v) with
             | SWList st => unstopped st (filter (fun w => 2 <=? length w) ws) ts
             | _ => ts = filter (fun w => 2 <=? length w) ws
             end) ps tss ->
  Forall (fun ts => (Z.of_nat (length ts) <= 2 ^ 53)%Z) tss ->
  exists rows, count_transform (A:=F64 m) U v (RawDocs (map DocStr docs)) = Ok (Sp rows (Some (Z.of_nat (length (cv_vocab v)))) (cv_dtype v)) /\
    Forall2 (fun ts r => term_row (cv_vocab v) (fun t => ofnat (occurrences t ts)) r) tss rows.
Proof.
  intros m U word v docs ps tss HD HV HB ND HA HP HL HH HS FP FT HN.
  assert (EA : exists an, build_analyzer U (cv_conf v) = Ok an).
  { destruct docs as [|s docs]; [congruence|]. inversion FP as [|? p ? ps' P1 P2]; subst. destruct (Text.prepared_ok _ _ _ _ P1) as (accent & E & _).
    unfold build_analyzer. rewrite E. cbn [bind]. rewrite HA. change (str_eqb (lit "word") (lit "char")) with false. change (str_eqb (lit "word") (lit "char_wb")) with false. change (str_eqb (lit "word") (lit "word")) with true. cbv iota.
    destruct (tc_stop (cv_conf v)) as [|w|l]; [| |]; cbn [check_stop_list bind]; [eauto|destruct (HS w eq_refl)|eauto]. }
  destruct EA as [an EA]. apply (Text.C41_counts m U v an (map DocStr docs) tss); auto; [destruct docs; [congruence|discriminate]|].
  clear HN ND. revert tss FT. induction FP as [|s p docs ps P1 FP IH]; intros tss FT; inversion FT as [|? ts ? tss' (ws & W & T) FT']; subst; cbn [map]; constructor; auto.
  rewrite (Text.C39_word U (cv_conf v) an s p (filter (fun w => 2 <=? length w) ws) ts); auto.
  - rewrite HL, HH. change (Z.to_nat 1) with 1. unfold grams, upto. cbn [Nat.add Nat.sub seq map concat]. rewrite app_nil_r, windows_1, map_map. f_equal.
    rewrite <- (map_id ts) at 2. apply map_ext. intro w. cbn [joined map concat]. apply app_nil_r.
  - lia.
  - rewrite HP, HD. f_equal. apply C81_tokens. exact W.
Qed.
Print Assumptions C81_count_vectorizer.

(** The two other patterns of the module, run by the same matcher, give the
    functions C40 and C76 are about. *)
Theorem C81_patterns : forall (word : Z -> bool) (U : textlib) (s : pystr),
  re_sub word tag_rx [32%Z] s = strip_tags s /\
  re_sub word (spaces_rx (x_space U)) [32%Z] s = white_spaces_sub U s /\ collapsed (x_space U) s (white_spaces_sub U s).
Proof.
  intros word U s. split; [apply sub_tags|]. assert (C : collapsed (x_space U) s (white_spaces_sub U s)) by (apply (ws_ok U (length s) s); auto).
  split; [|exact C]. apply sub_spaces; auto.
Qed.
Print Assumptions C81_patterns.

Definition ascii_word (c : Z) : bool :=
  ((97 <=? c) && (c <=? 122) || (65 <=? c) && (c <=? 90) || (48 <=? c) && (c <=? 57) || (c =? 95))%Z.
Definition word_lib : textlib :=
  {| x_lower := fun s => s; x_nfkd := fun s => s; x_combining := fun _ => false; x_space := fun c => (c =? 32)%Z;
     x_findall := fun p s => if str_eqb p default_pattern then Ok (re_findall ascii_word (token_rx ascii_word) s) else Err ValueError; x_decode := fun _ _ b => Ok b |}.
Example C81_ex : default_tokens word_lib ascii_word /\
  re_findall ascii_word (token_rx ascii_word) (lit "I am x2-ray, a_b!") = [lit "am"; lit "x2"; lit "ray"; lit "a_b"] /\
  words (fun c => negb (ascii_word c)) (lit "I am") [lit "I"; lit "am"] /\
  re_sub ascii_word tag_rx [32%Z] (lit "a<b>c <> d<e") = lit "a c <> d<e".
Proof.
  split; [intro s; unfold word_lib; cbn [x_findall]; change (str_eqb default_pattern default_pattern) with true; reflexivity|]. split; [vm_compute; reflexivity|]. split; [|vm_compute; reflexivity].
  apply (wd_word _ (lit "I") (lit " am")); [discriminate|repeat constructor|reflexivity|]. apply wd_space; [reflexivity|]. apply (wd_word _ (lit "am") []); [discriminate|repeat constructor|exact I|constructor].
Qed.
Example C81_ex_count : forall m : libm,
  let c := {| tc_analyzer := lit "word"; tc_strip := None; tc_lower := false; tc_stop := SWList [lit "am"]; tc_pattern := default_pattern; tc_lo := 1; tc_hi := 1; tc_encoding := lit "utf-8"; tc_errors := lit "strict" |} in
  let v := {| cv_conf := c; cv_vocab := [(lit "ray", 1%Z); (lit "x2", 0%Z)]; cv_binary := false; cv_dtype := DInt |} in
  vocabulary (cv_vocab v) /\ prepared word_lib c (lit "I am ray x2-ray") (lit "I am ray x2-ray") /\
  match count_transform (A:=F64 m) word_lib v (RawDocs [DocStr (lit "I am ray x2-ray")]) with
  | Ok (Sp [[(1%Z, a); (0%Z, b)]] (Some 2%Z) _) => eqb a (ofnat 2) && eqb b one
  | _ => false
  end = true.
Proof.
  intros m c v. split; [split; [|split]|].
  - repeat constructor; cbn; intuition discriminate.
  - repeat constructor; cbn; intuition discriminate.
  - cbn. intros t j [E|[E|[]]]; inversion E; subst; cbn; lia.
  - split; [reflexivity|]. vm_compute. reflexivity.
Qed.
