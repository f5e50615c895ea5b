(** Proofs about the tag stripper and the stop-word check. *)
From Coq Require Import String Lia Sorting.Sorted.
From Verif Require Import Model.Py Model.Arith Model.Text Model.Convert Model.TextTools.
From Verif Require Import Spec.TextTools Proofs.Lib.
Local Open Scope nat_scope.

Lemma past_gt_some : forall s r, past_gt s = Some r -> exists b, s = b ++ 62%Z :: r /\ ~ In 62%Z b.
Proof.
  induction s as [|c s IH]; intros r H; [discriminate|]. cbn [past_gt] in H. destruct (Z.eqb_spec c 62) as [->|N].
  - injection H as ->. exists []. split; auto.
  - destruct (IH r H) as (b & -> & NI). exists (c :: b). split; auto. intros [E|E]; auto.
Qed.
Lemma past_gt_in : forall b r, ~ In 62%Z b -> past_gt (b ++ 62%Z :: r) = Some r.
Proof.
  induction b as [|c b IH]; intros r H; [reflexivity|]. cbn [past_gt app]. destruct (Z.eqb_spec c 62) as [->|N]; [exfalso; apply H; left; auto|]. apply IH. intro; apply H; right; auto.
Qed.
Lemma past_gt_none : forall s, past_gt s = None -> ~ In 62%Z s.
Proof. induction s as [|c s IH]; intros H; auto. cbn [past_gt] in H. destruct (Z.eqb_spec c 62); [discriminate|]. intros [E|E]; auto. apply IH; auto. Qed.
Lemma past_body_some : forall s r, past_body s = Some r -> exists b, b <> [] /\ ~ In 62%Z b /\ s = b ++ 62%Z :: r.
Proof.
  intros [|c s] r H; [discriminate|]. cbn [past_body] in H. destruct (Z.eqb_spec c 62) as [->|N]; [discriminate|]. destruct (past_gt_some s r H) as (b & -> & NI). exists (c :: b). split; [discriminate|]. split; auto. intros [E|E]; auto.
Qed.
Lemma past_body_in : forall b r, b <> [] -> ~ In 62%Z b -> past_body (b ++ 62%Z :: r) = Some r.
Proof.
  intros [|c b] r N NI; [congruence|]. cbn [past_body app]. destruct (Z.eqb_spec c 62) as [->|]; [exfalso; apply NI; left; auto|]. apply past_gt_in. intro; apply NI; right; auto.
Qed.
Lemma starts_iff : forall c t, starts_tag (c :: t) <-> c = 60%Z /\ exists r, past_body t = Some r.
Proof.
  intros c t. split.
  - intros (tg & b & (body & NB & NI & ->) & E). cbn [app] in E. injection E as -> ->. split; auto. exists b. rewrite <- app_assoc. apply past_body_in; auto.
  - intros (-> & r & H). destruct (past_body_some t r H) as (b & NB & NI & ->). exists (60%Z :: b ++ [62%Z]), r. split; [exists b; auto|]. cbn [app]. rewrite <- app_assoc. auto.
Qed.
Lemma starts_nil : ~ starts_tag [].
Proof. intros (t & b & (body & _ & _ & ->) & E). discriminate. Qed.
Lemma no_tag_cons : forall c s, no_tag (c :: s) <-> ~ starts_tag (c :: s) /\ no_tag s.
Proof.
  intros c s. split.
  - intro H. split; [intros (t & b & Ht & E); exact (H [] t b E Ht)|]. intros a t b E. apply (H (c :: a) t b). rewrite E. auto.
  - intros [H1 H2] a t b E Ht. destruct a as [|x a]; [apply H1; exists t, b; auto|]. injection E as -> E. exact (H2 a t b E Ht).
Qed.
Lemma no_tag_nil : no_tag [].
Proof. intros a t b E (body & _ & _ & ->). destruct a; discriminate. Qed.

Lemma stripped_cons : forall c s r, ~ starts_tag (c :: s) -> stripped s r -> stripped (c :: s) (c :: r).
Proof.
  intros c s r N H. inversion H as [s' HN|a t b r' Ht HL HR]; subst.
  - apply st_none. apply no_tag_cons. auto.
  - change (c :: a ++ t ++ b) with ((c :: a) ++ t ++ b). change (c :: a ++ [32%Z] ++ r') with ((c :: a) ++ [32%Z] ++ r'). apply st_tag; auto.
    intros [|x a1] a2 E Hne; [cbn [app] in E; subst a2; exact N|]. injection E as -> E. eapply HL; eauto.
Qed.
Lemma strip_ok : forall n s, length s <= n -> stripped s (strip_from n s).
Proof.
  induction n as [|n IH]; intros s Hn; [destruct s; [apply st_none, no_tag_nil|cbn in Hn; lia]|].
  destruct s as [|c s]; [apply st_none, no_tag_nil|]. cbn [length] in Hn. cbn [strip_from]. destruct (Z.eqb_spec c 60) as [->|N].
  - destruct (past_body s) as [r|] eqn:E.
    + destruct (past_body_some s r E) as (b & NB & NI & ->). rewrite app_length in Hn. cbn [length] in Hn. pose proof (IH r ltac:(lia)) as HR.
      pose proof (st_tag [] (60%Z :: b ++ [62%Z]) r _ ltac:(exists b; auto) ltac:(intros a1 a2 E' N'; destruct a1, a2; try discriminate; congruence) HR) as Q.
      cbn [app] in Q. rewrite <- app_assoc in Q. exact Q.
    + apply stripped_cons; [|apply IH; lia]. rewrite starts_iff. intros (_ & r & E'). congruence.
  - apply stripped_cons; [|apply IH; lia]. rewrite starts_iff. tauto.
Qed.
Lemma strip_copy : forall n c s, ~ starts_tag (c :: s) -> strip_from (S n) (c :: s) = c :: strip_from n s.
Proof.
  intros n c s H. cbn [strip_from]. destruct (Z.eqb_spec c 60) as [->|]; auto. destruct (past_body s) as [r|] eqn:E; auto. exfalso. apply H. apply starts_iff. eauto.
Qed.
Lemma strip_id : forall n s, length s <= n -> no_tag s -> strip_from n s = s.
Proof.
  induction n as [|n IH]; intros [|c s] Hn H; auto; [cbn in Hn; lia|]. apply no_tag_cons in H. destruct H as [H1 H2]. rewrite strip_copy by auto. f_equal. apply IH; auto. cbn in Hn. lia.
Qed.
Lemma strip_at : forall t b n, tag t -> strip_from (S n) (t ++ b) = 32%Z :: strip_from n b.
Proof.
  intros t b n (body & NB & NI & ->). cbn [app strip_from]. change (60 =? 60)%Z with true. cbn iota. rewrite <- app_assoc. cbn [app]. rewrite past_body_in; auto.
Qed.
Lemma strip_fun : forall s r, stripped s r -> forall n, length s <= n -> strip_from n s = r.
Proof.
  intros s r H. induction H as [s HN|a t b r Ht HL HR IH]; intros n Hn; [apply strip_id; auto|].
  revert n Hn HL. induction a as [|c a IHa]; intros n Hn HL.
  - cbn [app]. cbn [app] in Hn. rewrite app_length in Hn. destruct n as [|n]; [destruct Ht as (body & _ & _ & ->); cbn in Hn; lia|]. rewrite strip_at by auto. f_equal. apply IH.
    destruct Ht as (body & _ & _ & ->). cbn [length] in Hn. lia.
  - cbn [app]. cbn [app length] in Hn. destruct n as [|n]; [lia|]. rewrite strip_copy; [|exact (HL [] (c :: a) eq_refl ltac:(discriminate))]. f_equal. apply IHa; [lia|]. intros a1 a2 E N. apply (HL (c :: a1) a2); auto. rewrite E. auto.
Qed.
Lemma strip_chars : forall n s x, In x (strip_from n s) -> In x s \/ x = 32%Z.
Proof.
  induction n as [|n IH]; intros [|c s] x H; try destruct H. cbn [strip_from] in H. destruct (Z.eqb_spec c 60) as [->|].
  - destruct (past_body s) as [r|] eqn:E.
    + destruct H as [<-|H]; auto. destruct (IH r x H) as [G|G]; auto. destruct (past_body_some s r E) as (b & _ & _ & ->). left. right. apply in_or_app. right. right. auto.
    + destruct H as [<-|H]; [left; left; auto|]. destruct (IH s x H); auto. left; right; auto.
  - destruct H as [<-|H]; [left; left; auto|]. destruct (IH s x H); auto. left; right; auto.
Qed.
Lemma strip_clean : forall n s, length s <= n -> no_tag (strip_from n s).
Proof.
  induction n as [|n IH]; intros [|c s] Hn; try apply no_tag_nil. cbn [length] in Hn. cbn [strip_from]. destruct (Z.eqb_spec c 60) as [->|N].
  - destruct (past_body s) as [r|] eqn:E.
    + apply no_tag_cons. rewrite starts_iff. split; [intros [H _]; discriminate|]. apply IH. destruct (past_body_some s r E) as (b & _ & _ & ->). rewrite app_length in Hn. cbn [length] in Hn. lia.
    + apply no_tag_cons. split; [|apply IH; lia]. rewrite starts_iff. intros (_ & r & E'). destruct s as [|d s]; [destruct n; discriminate|]. cbn [past_body] in E. destruct (Z.eqb_spec d 62) as [->|ND].
      * destruct n as [|n]; [cbn in Hn; lia|]. cbn [strip_from] in E'. change (62 =? 60)%Z with false in E'. cbn iota in E'. discriminate.
      * apply past_gt_none in E. destruct (past_body_some _ _ E') as (b & _ & _ & EB). assert (I : In 62%Z (strip_from n (d :: s))) by (rewrite EB; apply in_or_app; right; left; auto).
        apply strip_chars in I. destruct I as [[I|I]|I]; auto. discriminate.
  - apply no_tag_cons. rewrite starts_iff. split; [tauto|]. apply IH. lia.
Qed.

(** The order of strings. *)
Lemma str_ltb_before : forall s t, str_ltb s t = true <-> before s t.
Proof.
  induction s as [|c s IH]; intros [|d t]; cbn [str_ltb].
  - split; [discriminate|inversion 1].
  - split; [constructor|auto].
  - split; [discriminate|inversion 1].
  - destruct (Z.eqb_spec c d) as [->|N].
    + rewrite IH. split; [apply be_eq|]. inversion 1; subst; auto. lia.
    + rewrite Z.ltb_lt. split; [apply be_lt|]. inversion 1; subst; auto. congruence.
Qed.
Lemma before_trans : forall a b c, before a b -> before b c -> before a c.
Proof.
  intros a b c H. revert c. induction H as [x t|x y s t L|x s t H IH]; intros c K; inversion K; subst; try constructor; auto; lia.
Qed.
Lemma before_total : forall a b, a = b \/ before a b \/ before b a.
Proof.
  induction a as [|x a IH]; intros [|y b]; auto; [right; left; constructor|right; right; constructor|]. destruct (Z.lt_trichotomy x y) as [H|[->|H]]; [right; left; constructor; auto| |right; right; constructor; auto].
  destruct (IH b) as [->|[H|H]]; [auto|right; left; apply be_eq; auto|right; right; apply be_eq; auto].
Qed.
Lemma set_add_in : forall w l x, In x (set_add w l) <-> x = w \/ In x l.
Proof.
  intros w l x. induction l as [|y l IH]; cbn [set_add]; [cbn; intuition|]. destruct (str_eqb w y) eqn:E; [apply str_eqb_ok in E; subst y; cbn; intuition; subst; auto|].
  destruct (str_ltb w y); cbn [In]; [intuition|]. rewrite IH. intuition.
Qed.
Lemma set_add_sorted : forall w l, StronglySorted before l -> StronglySorted before (set_add w l).
Proof.
  intros w l H. induction H as [|y l H IH F]; cbn [set_add]; [constructor; constructor|]. destruct (str_eqb w y) eqn:E; [constructor; auto|].
  destruct (str_ltb w y) eqn:L.
  - apply str_ltb_before in L. constructor; [constructor; auto|]. constructor; auto. eapply Forall_impl; [|exact F]. intros z Hz. eapply before_trans; eauto.
  - constructor; auto. apply Forall_forall. intros z Hz. apply set_add_in in Hz. destruct Hz as [->|Hz]; [|rewrite Forall_forall in F; auto].
    destruct (before_total w y) as [->|[B|B]]; auto; [rewrite str_eqb_refl in E; discriminate|]. apply str_ltb_before in B. congruence.
Qed.

Section Stops.
  Variable U : textlib.
  Lemma add_all : forall stop toks acc, StronglySorted before acc ->
    StronglySorted before (fold_left (fun acc t => if mem str_eqb t stop then acc else set_add t acc) toks acc) /\
    forall t, In t (fold_left (fun acc t => if mem str_eqb t stop then acc else set_add t acc) toks acc) <-> In t acc \/ (~ In t stop /\ In t toks).
  Proof.
    intros stop. induction toks as [|x toks IH]; intros acc H; cbn [fold_left]; [split; auto; intro; cbn; tauto|].
    destruct (mem str_eqb x stop) eqn:E.
    - destruct (IH acc H) as [S I]. split; auto. intro t. rewrite I. cbn [In]. apply (mem_in str_eqb str_eqb_ok) in E. intuition. subst. contradiction.
    - destruct (IH _ (set_add_sorted x acc H)) as [S I]. split; auto. intro t. rewrite I, set_add_in. cbn [In].
      assert (N : ~ In x stop) by (rewrite <- (mem_in str_eqb str_eqb_ok), E; discriminate). intuition; subst; auto.
  Qed.
  Lemma stray_fold : forall c accent stop ws acc, (forall w, In w ws -> exists toks, x_findall U (tc_pattern c) (preprocess U c accent w) = Ok toks) -> StronglySorted before acc ->
    exists ts, foldM (fun acc w => toks <- x_findall U (tc_pattern c) (preprocess U c accent w) ;; Ok (fold_left (fun acc t => if mem str_eqb t stop then acc else set_add t acc) toks acc)) ws acc = Ok ts /\
      StronglySorted before ts /\
      forall t, In t ts <-> In t acc \/ (~ In t stop /\ exists w toks, In w ws /\ x_findall U (tc_pattern c) (preprocess U c accent w) = Ok toks /\ In t toks).
  Proof.
    intros c accent stop. induction ws as [|w ws IH]; intros acc H S; cbn [foldM].
    - exists acc. split; auto. split; auto. intro t. split; auto. intros [G|(_ & w & _ & [] & _)]; auto.
    - destruct (H w (or_introl eq_refl)) as [toks E]. rewrite E. cbn [bind]. destruct (add_all stop toks acc S) as [S1 I1].
      destruct (IH _ (fun w' Hw => H w' (or_intror Hw)) S1) as (ts & Ef & S2 & I2). exists ts. split; auto. split; auto. intro t. rewrite I2, I1. split.
      + intros [[G|[N G]]|(N & w' & k & Hw & E' & G)]; auto; right; split; auto; [exists w, toks|exists w', k]; repeat split; auto; [left|right]; auto.
      + intros [G|(N & w' & k & [<-|Hw] & E' & G)]; auto.
        * left. right. split; auto. rewrite E in E'. injection E' as ->. auto.
        * right. split; auto. exists w', k. auto.
  Qed.
  Lemma stray_ok : forall c accent stop, (forall w, In w stop -> exists toks, x_findall U (tc_pattern c) (preprocess U c accent w) = Ok toks) ->
    exists ts, stray_tokens U c accent stop = Ok ts /\ StronglySorted before ts /\
      forall t, In t ts <-> ~ In t stop /\ exists w toks, In w stop /\ x_findall U (tc_pattern c) (preprocess U c accent w) = Ok toks /\ In t toks.
  Proof.
    intros c accent stop H. destruct (stray_fold c accent stop stop [] H) as (ts & E & S & I); [constructor|]. exists ts. split; auto. split; auto. intro t. rewrite I. cbn [In]. tauto.
  Qed.

  Lemma build_same : forall c ident strict last, fst (fst (build_checked U c ident strict last)) = build_analyzer U c.
  Proof.
    intros c ident strict last. unfold build_checked, build_analyzer. destruct (accent_fun U c) as [accent|e]; [|reflexivity]. cbn [bind].
    destruct (str_eqb (tc_analyzer c) (lit "char")); [reflexivity|]. destruct (str_eqb (tc_analyzer c) (lit "char_wb")); [reflexivity|]. destruct (str_eqb (tc_analyzer c) (lit "word")); [|reflexivity].
    destruct (check_stop_list (tc_stop c)) as [stop|e]; [|reflexivity]. cbn [bind]. destruct (check_stops U c accent stop ident strict last) as [[v w] l]. reflexivity.
  Qed.
  Lemma build_last : forall c ident strict last, snd (build_checked U c ident strict last) = last \/ snd (build_checked U c ident strict last) = Some ident.
  Proof.
    intros c ident strict last. unfold build_checked. destruct (accent_fun U c) as [accent|e]; auto. destruct (str_eqb (tc_analyzer c) (lit "char")); auto. destruct (str_eqb (tc_analyzer c) (lit "char_wb")); auto.
    destruct (str_eqb (tc_analyzer c) (lit "word")); auto. destruct (check_stop_list (tc_stop c)) as [stop|e]; auto. unfold check_stops.
    destruct (match last with Some i => (i =? ident)%Z | None => false end); auto. destruct (stray_tokens _ _ _ _) as [[|t ts]|e]; auto. destruct strict; auto.
  Qed.
  Lemma build_quiet : forall c ident strict, snd (fst (build_checked U c ident strict (Some ident))) = [] /\ snd (build_checked U c ident strict (Some ident)) = Some ident.
  Proof.
    intros c ident strict. split; [|destruct (build_last c ident strict (Some ident)); auto]. unfold build_checked. destruct (accent_fun U c) as [accent|e]; auto. destruct (str_eqb (tc_analyzer c) (lit "char")); auto. destruct (str_eqb (tc_analyzer c) (lit "char_wb")); auto.
    destruct (str_eqb (tc_analyzer c) (lit "word")); auto. destruct (check_stop_list (tc_stop c)) as [stop|e]; auto. unfold check_stops. rewrite Z.eqb_refl. auto.
  Qed.
  Lemma build_char : forall c ident strict last, tc_analyzer c <> lit "word" -> snd (fst (build_checked U c ident strict last)) = [] /\ snd (build_checked U c ident strict last) = last.
  Proof.
    intros c ident strict last N. unfold build_checked. destruct (accent_fun U c) as [accent|e]; auto. destruct (str_eqb (tc_analyzer c) (lit "char")); auto. destruct (str_eqb (tc_analyzer c) (lit "char_wb")); auto.
    destruct (str_eqb (tc_analyzer c) (lit "word")) eqn:E; auto. apply str_eqb_ok in E. congruence.
  Qed.
  Lemma build_word : forall c ident strict last an, tc_analyzer c = lit "word" -> build_analyzer U c = Ok an -> snd (build_checked U c ident strict last) = Some ident.
  Proof.
    intros c ident strict last an W H. unfold build_checked. unfold build_analyzer in H. destruct (accent_fun U c) as [accent|e]; [|discriminate]. cbn [bind] in H. rewrite W in *.
    change (str_eqb (lit "word") (lit "char")) with false in *. change (str_eqb (lit "word") (lit "char_wb")) with false in *. change (str_eqb (lit "word") (lit "word")) with true in *. cbv iota in *.
    destruct (check_stop_list (tc_stop c)) as [stop|e]; [|discriminate]. unfold check_stops. destruct last as [i|].
    - destruct (Z.eqb_spec i ident) as [->|]; auto. destruct (stray_tokens _ _ _ _) as [[|t ts]|e]; auto. destruct strict; auto.
    - destruct (stray_tokens _ _ _ _) as [[|t ts]|e]; auto. destruct strict; auto.
  Qed.
  Lemma quiet_after : forall calls ident, Forall (fun k => snd (fst k) = ident \/ tc_analyzer (fst (fst k)) <> lit "word") calls ->
    Forall (eq []) (warnings_of U calls (Some ident)).
  Proof.
    intros calls ident H. induction H as [|[[c i] strict] calls H F IH]; cbn [warnings_of]; [constructor|]. cbn [fst snd] in H.
    assert (Q : snd (fst (build_checked U c i strict (Some ident))) = [] /\ snd (build_checked U c i strict (Some ident)) = Some ident) by (destruct H as [->|H]; [apply build_quiet|apply build_char; auto]).
    destruct (build_checked U c i strict (Some ident)) as [[r w] l]. cbn [fst snd] in Q. destruct Q as [-> ->]. constructor; auto.
  Qed.
End Stops.
