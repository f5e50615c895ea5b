(** Vocabulary for tags and for stop words. *)
From Coq Require Import String Sorting.Sorted.
From Verif Require Import Model.Py Model.Arith Model.Text.

(** What a converted vectorizer does to a text before cutting it up. *)
Definition prepared (U : textlib) (c : textconf) (s p : pystr) : Prop :=
  let l := if tc_lower c then x_lower U s else s in
  match tc_strip c with
  | None => p = l
  | Some k =>
      (k = lit "ascii" /\ p = filter (fun ch => (ch <? 128)%Z) (x_nfkd U l)) \/
      (k = lit "unicode" /\ ((Forall (fun ch => ch < 128)%Z l /\ p = l) \/
                             (~ Forall (fun ch => ch < 128)%Z l /\ p = filter (fun ch => negb (x_combining U ch)) (x_nfkd U l))))
  end.

(** '<', one or more characters other than '>', '>'. *)
Definition tag (t : pystr) : Prop :=
  exists body, body <> [] /\ ~ In 62%Z body /\ t = 60%Z :: body ++ [62%Z].
(** A tag starts [s]. *)
Definition starts_tag (s : pystr) : Prop := exists t b, tag t /\ s = t ++ b.
(** [s] contains no tag. *)
Definition no_tag (s : pystr) : Prop := forall a t b, s = a ++ t ++ b -> ~ tag t.

(** [stripped s r]: [r] is [s] with its tags, taken from the left, replaced by
    one space each. *)
Inductive stripped : pystr -> pystr -> Prop :=
| st_none : forall s, no_tag s -> stripped s s
| st_tag : forall a t b r, tag t -> (forall a1 a2, a = a1 ++ a2 -> a2 <> [] -> ~ starts_tag (a2 ++ t ++ b)) ->
    stripped b r -> stripped (a ++ t ++ b) (a ++ [32%Z] ++ r).

(** [t] is a token of a stop word, and no stop word. *)
Definition stray (U : textlib) (c : textconf) (stop : list pystr) (t : pystr) : Prop :=
  ~ In t stop /\ exists w p toks, In w stop /\ prepared U c w p /\ x_findall U (tc_pattern c) p = Ok toks /\ In t toks.

(** The order of strings: by code point, prefixes first. *)
Inductive before : pystr -> pystr -> Prop :=
| be_nil : forall c t, before [] (c :: t)
| be_lt : forall c d s t, (c < d)%Z -> before (c :: s) (d :: t)
| be_eq : forall c s t, before s t -> before (c :: s) (c :: t).
