(** C62: returned lists and later predictions. *)
From Coq Require Import String.
From Verif Require Import Model.Py Model.Arith Model.Utils Model.Base Model.Text Model.Dummy Model.Preprocessing
  Model.Pipeline Model.Est Model.FastText Model.Sharing.
From Verif Require Import Spec.Est Spec.Sharing Proofs.Lib Proofs.Est Proofs.Sharing.

(** C62 is false of DummyClassifier, alone or at the end of a pipeline:
    modifying one row of what predict_proba returned replaces every row of
    every later result. *)
Theorem C62_refuted : forall (A : arith) (L V : Type) (veq : V -> V -> bool) vnum U (e : est A L V) prior X row f P,
  ends_in_dummy e prior ->
  o_proba (obj_of veq vnum U e) = Some f -> fst (f X) = Ok P -> P <> [] ->
  (forall r, In r P -> r = prior) /\
  exists f', o_proba (obj_of veq vnum U (after veq vnum U e [Call MProba X; Write 0 0 row])) = Some f' /\
    fst (f' X) = Ok (repeat row (length P)).
Proof. intros. eapply dummy_history; eauto. Qed.
Print Assumptions C62_refuted.

(** Everywhere else it holds: after any history of calls and modifications the
    estimator is what it was, so every later result is the same, if no
    DummyClassifier is the final estimator or predict_proba was not called.
    Missing: the refuted case. *)
Theorem C62_partial : forall (A : arith) (L V : Type) (veq : V -> V -> bool) vnum U (e : est A L V) history,
  (forall prior, ~ ends_in_dummy e prior) \/ (forall ev, In ev history -> is_proba ev = false) ->
  after veq vnum U e history = e.
Proof. intros. apply history_keeps. auto. Qed.
Print Assumptions C62_partial.

(** A pipeline of a Normalizer and a DummyClassifier falls under the first
    theorem, with a non-empty result; a pipeline ending in a Normalizer under
    the second. *)
Example C62_hypotheses : forall (A : arith) U,
  let e := EPipeline [(lit "n", ENormalizer (lit "max")); (lit "d", EDummy {| dm_prior := [one; zero] |})] : est A nat nat in
  ends_in_dummy e [one; zero] /\
  (exists f, o_proba (obj_of Nat.eqb (fun _ => 0) U (EDummy {| dm_prior := [one; zero] |} : est A nat nat)) = Some f /\
     fst (f (DNum (ll [[zero]; [one]]))) = Ok [[one; zero]; [one; zero]]) /\
  forall prior, ~ ends_in_dummy (EPipeline [(lit "d", EDummy {| dm_prior := [one; zero] |}); (lit "n", ENormalizer (lit "max"))] : est A nat nat) prior.
Proof.
  intros A U e. split; [|split].
  - apply (ends_pipeline [(lit "n", ENormalizer (lit "max"))] (lit "d") (EDummy {| dm_prior := [one; zero] |})). apply (ends_dummy {| dm_prior := [one; zero] |}).
  - eexists. split; reflexivity.
  - intros prior H. inversion H as [|pre nm e' prior' H' E]. apply (f_equal (@rev _)) in E. rewrite rev_app_distr in E. cbn in E.
    injection E as E1 E2 E3. subst. inversion H'.
Qed.

(** fastText: get_word_vector of a known word and get_input_vector return rows
    of the model's matrix, so modifying one changes later vectors. *)
Theorem C62_fasttext_refuted : forall (A : arith) (f : fasttext A) w i v row,
  index_of str_eqb w (f_words f) = Some i -> nth_error (f_input f) i = Some v ->
  get_word_vector f w = Ok v /\
  get_word_vector (fafter f [FCall (FWord w); FWrite 0 row]) w = Ok row /\
  get_input_vector (fafter f [FCall (FInput (Z.of_nat i)); FWrite 0 row]) (Z.of_nat i) = Ok row.
Proof. intros. apply fasttext_history; auto. Qed.
Print Assumptions C62_fasttext_refuted.

(** Histories without those calls leave the model as it was. *)
Theorem C62_fasttext_partial : forall (A : arith) (f : fasttext A) history,
  (forall ev, In ev history -> is_vector ev = false) -> fafter f history = f.
Proof. intros. apply fhistory_keeps. auto. Qed.
Print Assumptions C62_fasttext_partial.
(** The zero vector of an unknown word is the caller's own as well. *)
Theorem C62_fasttext_unknown_partial : forall (A : arith) (f : fasttext A) history,
  (forall ev, In ev history -> match ev with FCall (FInput _) => False | FCall (FWord w) => ~ In w (f_words f) | _ => True end) ->
  fafter f history = f.
Proof. intros. apply fhistory_keeps2. auto. Qed.
Print Assumptions C62_fasttext_unknown_partial.

Example C62_fasttext_case : forall (A : arith),
  let f := {| f_words := [lit "a"; lit "b"]; f_input := [[one]; [zero]]; f_dim := 1; f_sup := None |} : fasttext A in
  index_of str_eqb (lit "b") (f_words f) = Some 1 /\ nth_error (f_input f) 1 = Some [zero] /\
  fafter f [FCall (FWord (lit "b")); FWrite 0 [one; one]] <> f /\ ~ In (lit "c") (f_words f).
Proof.
  intros A f. split; [reflexivity|]. split; [reflexivity|]. split; [discriminate|].
  cbn. intros [H|[H|[]]]; discriminate.
Qed.
