(** Lemmas about histories of calls and modifications. *)
From Coq Require Import String.
From Verif Require Import Model.Py Model.Arith Model.Utils Model.Base Model.Text Model.Dummy
  Model.Pipeline Model.Est Model.FastText Model.Sharing.
From Verif Require Import Spec.Est Spec.Sharing Proofs.Lib Proofs.Est.

Section Est.
  Context {A : arith} {L V : Type}.
  Variable (veq : V -> V -> bool).
  Variable (vnum : A -> V).
  Variable (U : textlib).

  Lemma last_map_app : forall {S T} (f : S -> T) l x d, last (map f (l ++ [x])) d = f x.
  Proof. intros. rewrite map_app. cbn. apply last_last. Qed.

  Lemma shares_ends : forall e : est A L V, shares e = true -> exists prior, ends_in_dummy e prior.
  Proof.
    apply (est_rec' (fun e => shares e = true -> exists prior, ends_in_dummy e prior)); try (intros; discriminate).
    - intros steps IH H. cbn [shares] in H. destruct steps as [|x steps _] using rev_ind; [discriminate|].
      rewrite (last_map_app (fun ne : pystr * est A L V => shares (snd ne))) in H. apply Forall_app in IH. destruct IH as [_ IH].
      inversion IH as [|? ? IHx _]; subst. destruct (IHx H) as [prior Hp]. exists prior. destruct x as [nm e]. apply ends_pipeline. auto.
    - intros e He H. destruct e; try discriminate; try contradiction. eexists. constructor.
  Qed.

  Lemma set_prior_pipeline : forall row pre nm (e : est A L V),
    set_prior row (EPipeline (pre ++ [(nm, e)])) = EPipeline (pre ++ [(nm, set_prior row e)]).
  Proof.
    intros row pre nm e. cbn [set_prior]. f_equal. induction pre as [|x pre IH]; [reflexivity|].
    cbn [app]. destruct (pre ++ [(nm, e)]) as [|y l] eqn:E; [destruct pre; discriminate|]. f_equal. rewrite <- IH. reflexivity.
  Qed.

  Lemma step_keeps : forall (e : est A L V) hs ev,
    (shares e = false \/ is_proba ev = false) -> (forall h, In h hs -> h = Own) ->
    fst (step veq vnum U (e, hs) ev) = e /\ (forall h, In h (snd (step veq vnum U (e, hs) ev)) -> h = Own).
  Proof.
    intros e hs ev H Hh. destruct ev as [m X|j i row]; cbn [step].
    - cbn [fst snd]. split; auto. intros h Hi. apply in_app_or in Hi. destruct Hi as [Hi|[<-|[]]]; auto.
      destruct m; auto. destruct (o_proba _); auto. destruct H as [->|H]; [auto|discriminate].
    - destruct (nth_error hs j) as [[|n]|] eqn:E; try (cbn; auto; fail). apply nth_error_In in E. apply Hh in E. discriminate.
  Qed.
  Lemma history_keeps : forall (e : est A L V) history,
    (forall prior, ~ ends_in_dummy e prior) \/ (forall ev, In ev history -> is_proba ev = false) ->
    after veq vnum U e history = e.
  Proof.
    intros e history H. unfold after.
    assert (H' : shares e = false \/ (forall ev, In ev history -> is_proba ev = false)).
    { destruct H as [H|H]; [left|auto]. destruct (shares e) eqn:E; auto. destruct (shares_ends e E) as [p Hp]. destruct (H p Hp). }
    assert (G : forall hs, (forall h, In h hs -> h = Own) -> fst (fold_left (step veq vnum U) history (e, hs)) = e).
    { clear H. induction history as [|ev history IH]; intros hs Hh; [reflexivity|]. cbn [fold_left].
      destruct (step_keeps e hs ev) as [K1 K2]; auto; [destruct H'; auto; right; apply H; left; auto|].
      destruct (step veq vnum U (e, hs) ev) as [e' hs']. cbn [fst snd] in *. subst e'. apply IH; auto.
      destruct H'; auto. right. intros. apply H. right. auto. }
    apply G. intros h [].
  Qed.

  Lemma ends_shares : forall (e : est A L V) prior, ends_in_dummy e prior -> shares e = true.
  Proof.
    intros e prior H. induction H; [reflexivity|]. cbn [shares]. rewrite (last_map_app (fun ne : pystr * est A L V => shares (snd ne))). auto.
  Qed.

  Lemma last_step_app : forall pre nm (o : obj A L V), last_step (pre ++ [(nm, o)]) = Some o.
  Proof.
    intros pre nm o. unfold last_step. rewrite app_length. cbn [List.length].
    replace (List.length pre + 1 - 1) with (List.length pre + 0) by lia. rewrite nth_error_app2, Nat.add_0_r, Nat.sub_diag by lia. reflexivity.
  Qed.
  Lemma init_steps_app : forall pre nm (o : obj A L V), init_steps (pre ++ [(nm, o)]) = map snd pre.
  Proof.
    intros pre nm o. unfold init_steps. rewrite app_length. cbn [List.length].
    replace (List.length pre + 1 - 1) with (List.length pre + 0) by lia. rewrite firstn_app_2. cbn [firstn]. rewrite app_nil_r. reflexivity.
  Qed.

  (** predict_proba of such an estimator returns [n] copies of the prior, where
      [n] does not depend on the prior. *)
  Lemma dummy_proba : forall (e : est A L V) prior, ends_in_dummy e prior -> forall row, exists f f',
    o_proba (obj_of veq vnum U e) = Some f /\ o_proba (obj_of veq vnum U (set_prior row e)) = Some f' /\
    forall X, (exists n, fst (f X) = Ok (repeat prior n) /\ fst (f' X) = Ok (repeat row n)) \/
              (exists x, fst (f X) = Err x).
  Proof.
    intros e prior H row. induction H as [d|pre nm e prior H IH].
    - eexists. eexists. split; [reflexivity|]. split; [reflexivity|]. intro X. cbn [fst]. unfold dummy_predict_proba. cbn [dm_prior].
      destruct (len (as_sized X)) as [n|x]; [left; exists n|right; exists x]; auto. 
    - destruct IH as (f & f' & Ef & Ef' & IH). rewrite set_prior_pipeline. cbn [obj_of]. rewrite !map_app. cbn [map fst snd].
      cbn [pipeline o_proba]. unfold pipe_method. rewrite !last_step_app, !init_steps_app, Ef, Ef'.
      eexists. eexists. split; [reflexivity|]. split; [reflexivity|]. intro X. cbv beta zeta.
      destruct (t_out (run_steps _ None X)) as [[y|]|x]; cbn [fst]; [apply IH|apply IH|right; eauto].
  Qed.

  Lemma dummy_history : forall (e : est A L V) prior X row f P,
    ends_in_dummy e prior ->
    o_proba (obj_of veq vnum U e) = Some f -> fst (f X) = Ok P -> P <> [] ->
    (forall r, In r P -> r = prior) /\
    exists f', o_proba (obj_of veq vnum U (after veq vnum U e [Call MProba X; Write 0 0 row])) = Some f' /\
      fst (f' X) = Ok (repeat row (length P)).
  Proof.
    intros e prior X row f P H Ef EP N. destruct (dummy_proba e prior H row) as (f0 & f' & Ef0 & Ef' & K).
    rewrite Ef in Ef0. injection Ef0 as <-. destruct (K X) as [(n & E1 & E2)|[x E1]]; [|congruence].
    rewrite EP in E1. injection E1 as ->. split; [intros r Hr; eapply repeat_spec; eauto|].
    unfold after. cbn [fold_left step]. rewrite Ef, (ends_shares e prior H), EP. cbn [app nth_error]. rewrite repeat_length.
    destruct n as [|n]; [destruct (N eq_refl)|]. cbn [Nat.ltb Nat.leb fst]. exists f'. auto.
  Qed.
End Est.

Section Ft.
  Context {A : arith}.

  Lemma fhistory_keeps2 : forall (f : fasttext A) history,
    (forall ev, In ev history -> match ev with FCall (FInput _) => False | FCall (FWord w) => ~ In w (f_words f) | _ => True end) ->
    fafter f history = f.
  Proof.
    intros f history H. unfold fafter.
    assert (G : forall hs, (forall h, In h hs -> h = None) -> fst (fold_left fstep history (f, hs)) = f).
    { induction history as [|ev history IH]; intros hs Hh; [reflexivity|]. cbn [fold_left].
      assert (K : fstep (f, hs) ev = (f, hs) \/ fstep (f, hs) ev = (f, hs ++ [None])).
      { pose proof (H ev (or_introl eq_refl)) as He. destruct ev as [[i|w|t|t k th]|j row]; cbn; auto; [contradiction| |].
        - right. unfold get_word_id. destruct (index_of str_eqb w (f_words f)) as [i|] eqn:E; [|reflexivity].
          exfalso. apply He. apply index_of_some in E. destruct E as (x & Ex & Hx & _). apply str_eqb_ok in Hx. subst x. eapply nth_error_In; eauto.
        - left. destruct (nth_error hs j) as [[r|]|] eqn:E; auto. apply nth_error_In in E. apply Hh in E. discriminate. }
      destruct K as [-> | ->]; apply IH; auto; try (intros; apply H; right; auto; fail).
      intros h Hi. apply in_app_or in Hi. destruct Hi as [Hi|[<-|[]]]; auto. }
    apply G. intros h [].
  Qed.
  Lemma fhistory_keeps : forall (f : fasttext A) history,
    (forall ev, In ev history -> is_vector ev = false) -> fafter f history = f.
  Proof.
    intros f history H. apply fhistory_keeps2. intros ev Hi. apply H in Hi. destruct ev as [[i|w|t|t k th]|j row]; auto; discriminate.
  Qed.

  Lemma set_row_nth : forall (f : fasttext A) i v row, nth_error (f_input f) i = Some v ->
    nth_error (f_input (set_row f i row)) i = Some row.
  Proof.
    intros f i v row H. apply nth_error_lt in H. cbn [set_row f_input].
    rewrite nth_error_app2; rewrite firstn_length_le by lia; [|lia]. rewrite Nat.sub_diag. reflexivity.
  Qed.
  Lemma fasttext_history : forall (f : fasttext A) w i v row,
    index_of str_eqb w (f_words f) = Some i -> nth_error (f_input f) i = Some v ->
    get_word_vector f w = Ok v /\
    get_word_vector (fafter f [FCall (FWord w); FWrite 0 row]) w = Ok row /\
    get_input_vector (fafter f [FCall (FInput (Z.of_nat i)); FWrite 0 row]) (Z.of_nat i) = Ok row.
  Proof.
    intros f w i v row Hw Hi. pose proof (nth_error_lt _ _ _ Hi) as Hl.
    assert (R : ((- Z.of_nat (List.length (f_input f)) <=? Z.of_nat i) && (Z.of_nat i <? Z.of_nat (List.length (f_input f))))%Z = true) by lia.
    assert (N : (Z.of_nat i <? 0)%Z = false) by lia. assert (P : (0 <=? Z.of_nat i)%Z = true) by lia.
    unfold fafter. cbn [fold_left fstep shared_row app nth_error]. unfold get_word_id. rewrite Hw, P, R, N, Nat2Z.id. cbn [fst].
    unfold get_word_vector, get_word_id, get_input_vector. cbn [f_words set_row]. rewrite Hw, P.
    rewrite !lget_nat. change (firstn i (f_input f) ++ row :: skipn (S i) (f_input f)) with (f_input (set_row f i row)).
    split; [apply lnth_ok; auto|]. split; apply lnth_ok; eapply set_row_nth; eauto.
  Qed.
End Ft.
