(** Proofs about the matcher of Model/Regex.v. *)
From Coq Require Import Lia String.
From Verif Require Import Model.Py Model.Arith Model.Text Model.TextTools Model.Regex Spec.Text Proofs.Lib Proofs.Text Proofs.TextTools.

Lemma runs_head : forall p (r s : list Z) c, Forall (fun x => p x = true) (c :: r) -> match s with [] => True | x :: _ => p x = false end ->
  exists z l, runs p ((c :: r) ++ s) = (Some z, s) :: l /\ p z = true.
Proof.
  intros p r s. induction r as [|d r IH]; intros c F H.
  - inversion F; subst. cbn [app runs]. rewrite H2. exists c, []. split; auto. destruct s as [|x s]; cbn [runs]; [reflexivity|]. rewrite H. reflexivity.
  - inversion F as [|? ? Hc F']; subst. destruct (IH d F' H) as (z & l & E & Z1). exists z, (l ++ [(Some c, d :: r ++ s)]). split; auto. cbn [app] in E |- *. cbn [runs] in E |- *. rewrite Hc. rewrite E. reflexivity.
Qed.
Lemma runs_none : forall p s, match s with [] => True | x :: _ => p x = false end -> runs p s = [].
Proof. intros p [|x s] H; cbn [runs]; [reflexivity|]. rewrite H. reflexivity. Qed.
Lemma find_skip : forall w n r b c (t : list Z), first_match w r (b, c :: t) = None -> find_from w (S n) r (b, c :: t) = find_from w n r (Some c, t).
Proof. intros w n r b c t H. cbn [find_from snd]. rewrite H. reflexivity. Qed.
Lemma find_hit : forall w n r b (u s : list Z) b', u <> [] -> first_match w r (b, u ++ s) = Some (b', s) -> find_from w (S n) r (b, u ++ s) = u :: find_from w n r (b', s).
Proof.
  intros w n r b u s b' N H. destruct u as [|c u]; [congruence|]. cbn [find_from snd]. cbn [app] in H |- *. rewrite H.
  change (c :: u ++ s) with ((c :: u) ++ s). rewrite app_length. replace (length (c :: u) + length s - length s) with (length (c :: u)) by lia.
  rewrite firstn_app, Nat.sub_diag, firstn_all. cbn [firstn]. rewrite app_nil_r. reflexivity.
Qed.
Lemma sub_skip : forall w n r by_ b c (t : list Z), first_match w r (b, c :: t) = None -> sub_from w (S n) r by_ (b, c :: t) = c :: sub_from w n r by_ (Some c, t).
Proof. intros w n r by_ b c t H. cbn [sub_from snd]. rewrite H. reflexivity. Qed.
Lemma sub_hit : forall w n r by_ b c (t : list Z) b' s, first_match w r (b, c :: t) = Some (b', s) -> sub_from w (S n) r by_ (b, c :: t) = by_ ++ sub_from w n r by_ (b', s).
Proof. intros w n r by_ b c t b' s H. cbn [sub_from snd]. rewrite H. reflexivity. Qed.

Section Tokens.
  Variable word : Z -> bool.
  Notation sep := (fun c => negb (word c)).

  Lemma token_at : forall b c d (r s : list Z), word_at word b = false -> Forall (fun x => word x = true) (c :: d :: r) -> match s with [] => True | x :: _ => word x = false end ->
    exists b', first_match word (token_rx word) (b, (c :: d :: r) ++ s) = Some (b', s).
  Proof.
    intros b c d r s Hb F H. inversion F as [|? ? Hc F']; subst. destruct (runs_head word r s d F' H) as (z & l & E & Z1).
    exists (Some z). unfold first_match, token_rx. cbn [ways fst snd app hd_error]. cbn [word_at]. rewrite Hb, Hc. cbn [xorb flat_map app ways fst snd hd_error]. rewrite Hc. cbn [flat_map ways snd].
    cbn [app] in E. rewrite E. cbn [flat_map ways fst snd]. cbn [word_at]. rewrite Z1.
    assert (N : word_at word (hd_error s) = false) by (destruct s; [reflexivity|exact H]). rewrite N. cbn [xorb]. rewrite !app_nil_r. reflexivity.
  Qed.
  Lemma token_short : forall b c (s : list Z), match s with [] => True | x :: _ => word x = false end -> first_match word (token_rx word) (b, c :: s) = None.
  Proof.
    intros b c s H. unfold first_match, token_rx. cbn [ways fst snd]. destruct (xorb _ _); [|reflexivity]. cbn [flat_map ways snd]. destruct (word c); [|reflexivity]. cbn [flat_map ways snd]. rewrite (runs_none _ _ H). reflexivity.
  Qed.
  Lemma token_sep : forall b c (s : list Z), word c = false -> first_match word (token_rx word) (b, c :: s) = None.
  Proof. intros b c s H. unfold first_match, token_rx. cbn [ways fst snd]. destruct (xorb _ _); [|reflexivity]. cbn [flat_map ways snd]. rewrite H. reflexivity. Qed.

  Lemma find_tokens : forall s ws, words sep s ws -> forall n b, length s <= n -> (word_at word b = true -> match s with [] => True | c :: _ => word c = false end) ->
    find_from word n (token_rx word) (b, s) = filter (fun w => 2 <=? length w)%nat ws.
  Proof.
    intros s ws H. induction H as [|c s ws Hc H IH|w s ws Hw F Hs H IH]; intros n b Hn Hb.
    - destruct n; reflexivity.
    - destruct n as [|n]; [cbn in Hn; lia|]. apply Bool.negb_true_iff in Hc. etransitivity; [exact (find_skip _ _ _ _ _ _ (token_sep b c s Hc))|]. apply IH; [cbn in Hn; lia|]. cbn [word_at]. congruence.
    - destruct w as [|c w]; [congruence|]. assert (F' : Forall (fun x => word x = true) (c :: w)) by (eapply Forall_impl; [|exact F]; intros x Hx; apply Bool.negb_false_iff; exact Hx).
      assert (Hs' : match s with [] => True | x :: _ => word x = false end) by (destruct s; [auto|apply Bool.negb_true_iff; exact Hs]).
      assert (Nb : word_at word b = false). { destruct (word_at word b); [|reflexivity]. specialize (Hb eq_refl). cbn [app] in Hb. inversion F'; congruence. }
      destruct n as [|n]; [cbn in Hn; lia|]. destruct w as [|d w].
      + etransitivity; [exact (find_skip _ _ _ _ _ _ (token_short b c s Hs'))|]. cbn [filter length Nat.leb]. apply IH; [cbn in Hn; lia|]. intros _. exact Hs'.
      + destruct (token_at b c d w s Nb F' Hs') as [b' E]. etransitivity; [exact (find_hit _ _ _ _ (c :: d :: w) s b' ltac:(discriminate) E)|].
        change (filter (fun v => 2 <=? length v) ((c :: d :: w) :: ws)) with ((c :: d :: w) :: filter (fun v => 2 <=? length v) ws). f_equal.
        apply IH; [rewrite app_length in Hn; cbn in Hn; lia|]. intros _. exact Hs'.
  Qed.

  Lemma token1_at : forall b c (r s : list Z), word_at word b = false -> Forall (fun x => word x = true) (c :: r) -> match s with [] => True | x :: _ => word x = false end ->
    exists b', first_match word (token1_rx word) (b, (c :: r) ++ s) = Some (b', s).
  Proof.
    intros b c r s Hb F H. inversion F as [|? ? Hc F']; subst. destruct (runs_head word r s c F H) as (z & l & E & Z1).
    exists (Some z). unfold first_match, token1_rx. cbn [ways fst snd app hd_error]. cbn [word_at]. rewrite Hb, Hc. cbn [xorb flat_map ways fst snd].
    cbn [app] in E. rewrite E. cbn [flat_map ways fst snd]. cbn [word_at]. rewrite Z1.
    assert (N : word_at word (hd_error s) = false) by (destruct s; [reflexivity|exact H]). rewrite N. cbn [xorb]. rewrite !app_nil_r. reflexivity.
  Qed.
  Lemma token1_sep : forall b c (s : list Z), word c = false -> first_match word (token1_rx word) (b, c :: s) = None.
  Proof. intros b c s H. unfold first_match, token1_rx. cbn [ways fst snd]. destruct (xorb _ _); [|reflexivity]. cbn [flat_map ways snd runs]. rewrite H. reflexivity. Qed.
  Lemma find_tokens1 : forall s ws, words sep s ws -> forall n b, length s <= n -> (word_at word b = true -> match s with [] => True | c :: _ => word c = false end) ->
    find_from word n (token1_rx word) (b, s) = ws.
  Proof.
    intros s ws H. induction H as [|c s ws Hc H IH|w s ws Hw F Hs H IH]; intros n b Hn Hb.
    - destruct n; reflexivity.
    - destruct n as [|n]; [cbn in Hn; lia|]. apply Bool.negb_true_iff in Hc. etransitivity; [exact (find_skip _ _ _ _ _ _ (token1_sep b c s Hc))|]. apply IH; [cbn in Hn; lia|]. cbn [word_at]. congruence.
    - destruct w as [|c w]; [congruence|]. assert (F' : Forall (fun x => word x = true) (c :: w)) by (eapply Forall_impl; [|exact F]; intros x Hx; apply Bool.negb_false_iff; exact Hx).
      assert (Hs' : match s with [] => True | x :: _ => word x = false end) by (destruct s; [auto|apply Bool.negb_true_iff; exact Hs]).
      assert (Nb : word_at word b = false). { destruct (word_at word b); [|reflexivity]. specialize (Hb eq_refl). cbn [app] in Hb. inversion F'; congruence. }
      destruct n as [|n]; [cbn in Hn; lia|].
      destruct (token1_at b c w s Nb F' Hs') as [b' E]. etransitivity; [exact (find_hit _ _ _ _ (c :: w) s b' ltac:(discriminate) E)|]. f_equal.
      apply IH; [rewrite app_length in Hn; cbn in Hn; lia|]. intros _. exact Hs'.
  Qed.
End Tokens.

(** Words of a text put together from texts, or from words. *)
Lemma words_append : forall space a wa, words space a wa -> forall c b wb, space c = true -> words space b wb -> words space (a ++ c :: b) (wa ++ wb).
Proof.
  intros space a wa H. induction H as [|d s ws Hd H IH|w s ws Hw F Hs H IH]; intros c b wb Hc Hb; cbn [app].
  - constructor; auto.
  - constructor; auto.
  - rewrite <- app_assoc. constructor; auto. destruct s; auto.
Qed.
Lemma words_joined : forall space ts, space 32%Z = true -> Forall (fun w => w <> [] /\ Forall (fun c => space c = false) w) ts -> words space (joined ts) ts.
Proof.
  intros space ts H F. destruct ts as [|w ts]; [constructor|]. inversion F as [|? ? [W1 W2] F']; subst. cbn [joined]. clear F.
  revert w W1 W2. induction F' as [|x ts [X1 X2] F' IH]; intros w W1 W2.
  - cbn [map concat]. rewrite app_nil_r, <- (app_nil_r w) at 1. constructor; auto. constructor.
  - cbn [map concat]. apply wd_word; [exact W1|exact W2|exact H|]. cbn [app]. apply wd_space; [exact H|]. exact (IH x X1 X2).
Qed.
Lemma words_wordy : forall space s ws, words space s ws -> Forall (fun w => w <> [] /\ Forall (fun c => space c = false) w) ws.
Proof. intros space s ws H. induction H; auto. Qed.

(** The two patterns of Model/Text.v and Model/TextTools.v. *)
Lemma tag_body : forall w t, hd_error (flat_map (ways w (Chr (fun c => (c =? 62)%Z))) (runs (fun c => negb (c =? 62)%Z) t)) = match past_body t with Some r => Some (Some 62%Z, r) | None => None end.
Proof.
  intros w t. induction t as [|c t IH]; [reflexivity|]. cbn [runs past_body]. destruct (c =? 62)%Z eqn:E; [reflexivity|]. cbn [negb]. rewrite flat_map_app. cbn [flat_map]. rewrite app_nil_r.
  destruct t as [|d t]; [reflexivity|]. cbn [past_gt past_body] in *. destruct (d =? 62)%Z eqn:D.
  - cbn [runs]. rewrite D. cbn [negb flat_map app ways snd]. rewrite D. cbn [hd_error]. apply Z.eqb_eq in D. subst d. reflexivity.
  - rewrite <- IH. cbn [ways snd]. rewrite D, app_nil_r. reflexivity.
Qed.
Lemma sub_tags : forall w n s b, sub_from w n tag_rx [32%Z] (b, s) = strip_from n s.
Proof.
  intros w n. induction n as [|n IH]; intros s b; [reflexivity|]. destruct s as [|c t]; [reflexivity|]. cbn [sub_from snd strip_from].
  unfold first_match, tag_rx. cbn [ways snd]. destruct (c =? 60)%Z.
  - cbn [flat_map]. rewrite app_nil_r. cbn [ways snd]. pose proof (tag_body w t) as Q. cbn [ways] in Q. rewrite Q. destruct (past_body t); [cbn [app]|]; rewrite IH; reflexivity.
  - cbn [flat_map hd_error]. rewrite IH. reflexivity.
Qed.
Lemma sub_spaces : forall w space s t, collapsed space s t -> forall n b, length s <= n -> sub_from w n (spaces_rx space) [32%Z] (b, s) = t.
Proof.
  intros w space s t H. induction H as [|c s t Hc H IH|c s t Hc Hs H IH|run s t F L Hs H IH]; intros n b Hn.
  - destruct n; reflexivity.
  - destruct n as [|n]; [cbn in Hn; lia|]. cbn [sub_from snd]. unfold first_match, spaces_rx. cbn [ways snd]. rewrite Hc. cbn [flat_map hd_error]. f_equal. apply IH. cbn in Hn; lia.
  - destruct n as [|n]; [cbn in Hn; lia|]. cbn [sub_from snd]. unfold first_match, spaces_rx. cbn [ways snd]. rewrite Hc. cbn [flat_map ways snd]. rewrite (runs_none space s) by exact Hs. cbn [app hd_error]. f_equal. apply IH. cbn in Hn; lia.
  - destruct run as [|c [|d r]]; try (cbn in L; lia). destruct n as [|n]; [cbn in Hn; lia|]. inversion F as [|? ? Hc F']; subst.
    destruct (runs_head space r s d F' Hs) as (z & l & E & _). cbn [app] in E |- *. cbn [sub_from snd]. unfold first_match, spaces_rx. cbn [ways snd]. rewrite Hc. cbn [flat_map ways snd]. rewrite E. cbn [app hd_error].
    f_equal. apply IH. rewrite app_length in Hn. cbn in Hn. lia.
Qed.
