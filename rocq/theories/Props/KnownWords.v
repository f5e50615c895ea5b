(** C91: fastText sees only the known words of a sentence. *)
From Coq Require Import String ZArith List Lia.
From Verif Require Import Model.Py Model.Arith Model.F64 Model.Utils Model.Base Model.Text Model.FastText.
From Verif Require Import Spec.Matrix Spec.Text Spec.FastText.
From Verif Require Import Proofs.Lib Proofs.Text Proofs.FastText.
From Verif Require Import Props.Text Props.FastText.
Import ListNotations.

(** C91.  Two texts whose words, without those outside the vocabulary, are the
    same list, have the same sentence vector or the same error, bit for bit. *)
Theorem C91_vector : forall (A : arith) (U : textlib) (f : fasttext A) text text' ws ws' ks,
  x_space U 10 = true -> ~ In 10%Z text -> ~ In 10%Z text' ->
  words (x_space U) text ws -> words (x_space U) text' ws' ->
  restricted (f_words f) ws ks -> restricted (f_words f) ws' ks ->
  get_sentence_vector U f text = get_sentence_vector U f text'.
Proof.
  intros A U f text text' ws ws' ks HS HN HN' HW HW' HR HR'. unfold get_sentence_vector.
  assert (G : forall t, ~ In 10%Z t -> negb (mem Z.eqb 10%Z t) = true) by (intros t H; apply negb_true_iff; apply (mem_false Z.eqb Z.eqb_eq); auto).
  rewrite (G text HN), (G text' HN'). cbn [guard bind]. unfold str_split. rewrite !split_trailing by auto. fold (str_split U text) (str_split U text').
  apply words_fun in HW, HW'. rewrite <- HW, <- HW'. apply restricted_filter in HR, HR'. rewrite !filter_app, HR, HR'. reflexivity.
Qed.
Print Assumptions C91_vector.

(** C91.  ... and the same predictions, for every k and threshold. *)
Theorem C91_predict : forall (A : arith) (U : textlib) (f : fasttext A) text text' ws ws' ks k thr,
  x_space U 10 = true -> ~ In 10%Z text -> ~ In 10%Z text' ->
  words (x_space U) text ws -> words (x_space U) text' ws' ->
  restricted (f_words f) ws ks -> restricted (f_words f) ws' ks ->
  ft_predict U f (One text) k thr = ft_predict U f (One text') k thr.
Proof.
  intros A U f text text' ws ws' ks k thr HS HN HN' HW HW' HR HR'. unfold ft_predict, ft_predict1.
  rewrite (C91_vector A U f text text' ws ws' ks HS HN HN' HW HW' HR HR'). reflexivity.
Qed.
Print Assumptions C91_predict.

(** "dog  cow cat" and " dog cat cow cow": cow is unknown. *)
Example C91_ex : forall (A : arith), exists ws ws', words (x_space ex_lib) (lit "dog  cow cat") ws /\ words (x_space ex_lib) (lit " dog cat cow cow") ws' /\ ws <> ws' /\
  restricted (f_words (ex_ft (A:=A))) ws [lit "dog"; lit "cat"] /\ restricted (f_words (ex_ft (A:=A))) ws' [lit "dog"; lit "cat"] /\
  get_sentence_vector ex_lib (ex_ft (A:=A)) (lit "dog  cow cat") = get_sentence_vector ex_lib (ex_ft (A:=A)) (lit " dog cat cow cow").
Proof.
  intro A. exists [lit "dog"; lit "cow"; lit "cat"], [lit "dog"; lit "cat"; lit "cow"; lit "cow"].
  assert (W1 : words (x_space ex_lib) (lit "dog  cow cat") [lit "dog"; lit "cow"; lit "cat"]) by apply (proj1 (words_split ex_lib 100 (lit "dog  cow cat") ltac:(cbn; lia))).
  assert (W2 : words (x_space ex_lib) (lit " dog cat cow cow") [lit "dog"; lit "cat"; lit "cow"; lit "cow"]) by apply (proj1 (words_split ex_lib 100 (lit " dog cat cow cow") ltac:(cbn; lia))).
  assert (R1 : restricted (f_words (ex_ft (A:=A))) [lit "dog"; lit "cow"; lit "cat"] [lit "dog"; lit "cat"]) by apply (restricted_filter' (f_words (ex_ft (A:=A)))).
  assert (R2 : restricted (f_words (ex_ft (A:=A))) [lit "dog"; lit "cat"; lit "cow"; lit "cow"] [lit "dog"; lit "cat"]) by apply (restricted_filter' (f_words (ex_ft (A:=A)))).
  split; [exact W1|]. split; [exact W2|]. split; [discriminate|]. split; [exact R1|]. split; [exact R2|].
  eapply C91_vector; eauto; cbn; intuition discriminate.
Qed.
