(** C76, C77: the tag stripper and the stop-word check. *)
From Coq Require Import String Lia Sorting.Sorted.
From Verif Require Import Model.Py Model.Arith Model.Text Model.Convert Model.TextTools.
From Verif Require Import Spec.TextTools Proofs.Lib Proofs.TextTools Props.Text.
Local Open Scope nat_scope.

(** C76.  strip_tags replaces the tags of a text, from the left, by one space
    each (every text has exactly one such result) ... *)
Theorem C76_result : forall s r, strip_tags s = r <-> stripped s r.
Proof. intros s r. split; [intros <-; apply strip_ok; auto|]. intro H. apply strip_fun; auto. Qed.
(** ... none is left, so doing it twice changes nothing ... *)
Theorem C76_clean : forall s, no_tag (strip_tags s) /\ strip_tags (strip_tags s) = strip_tags s.
Proof. intro s. assert (H : no_tag (strip_tags s)) by (apply strip_clean; auto). split; auto. apply C76_result. apply st_none. auto. Qed.
(** ... and a text without tags is unchanged. *)
Theorem C76_same : forall s, strip_tags s = s <-> no_tag s.
Proof. intro s. split; [intros <-; apply C76_clean|]. intro H. apply C76_result. apply st_none. auto. Qed.
Print Assumptions C76_result.
Print Assumptions C76_clean.
Print Assumptions C76_same.
Example C76_ex : strip_tags (lit "<b>big</b> <>x> 1 < 2 <<i>>") = lit " big  <>x> 1  >".
Proof. vm_compute. reflexivity. Qed.
Example C76_ex2 : strip_tags (lit "1 < 2, a <b") = lit "1 < 2, a <b" /\ tag (lit "<<i>").
Proof. split; [vm_compute; reflexivity|]. exists (lit "<i"). split; [discriminate|]. split; [|reflexivity]. cbn. intuition discriminate. Qed.

(** C77.  The check of the stop words has no effect on the analyzer, and never
    makes building one raise, even with warnings turned into exceptions. *)
Theorem C77_analyzer : forall U c ident strict last, fst (fst (build_checked U c ident strict last)) = build_analyzer U c.
Proof. exact build_same. Qed.
(** The first word analyzer built with a list of stop words warns exactly if
    some stop word has a token that is no stop word; the one warning lists
    these tokens, each once and in order. *)
Theorem C77_warning : forall U c ident last stop, tc_analyzer c = lit "word" -> tc_stop c = SWList stop -> last <> Some ident ->
  (forall w, In w stop -> exists p toks, prepared U c w p /\ x_findall U (tc_pattern c) p = Ok toks) -> stop <> [] ->
  let '(_, warned, last') := build_checked U c ident false last in
  last' = Some ident /\
  ((warned = [] /\ forall t, ~ stray U c stop t) \/
   exists ts, warned = [ts] /\ ts <> [] /\ StronglySorted before ts /\ forall t, In t ts <-> stray U c stop t).
Proof.
  intros U c ident last stop HW HS HL HT NE.
  assert (HA : exists accent, accent_fun U c = Ok accent).
  { destruct stop as [|w stop]; [congruence|]. destruct (HT w (or_introl eq_refl)) as (p & _ & HP & _). destruct (prepared_ok U c w p HP) as (a & E & _). eauto. }
  destruct HA as [accent EA].
  assert (PR : forall w p, prepared U c w p -> preprocess U c accent w = p).
  { intros w p HP. destruct (prepared_ok U c w p HP) as (a & E & EP). rewrite EA in E. injection E as <-. exact EP. }
  destruct (stray_ok U c accent stop) as (ts & ET & SO & IN).
  { intros w Hw. destruct (HT w Hw) as (p & toks & HP & E). rewrite (PR w p HP). eauto. }
  assert (IN' : forall t, In t ts <-> stray U c stop t).
  { intro t. rewrite IN. unfold stray. split.
    - intros (N & w & toks & Hw & E & It). split; auto. destruct (HT w Hw) as (p & toks' & HP & E'). exists w, p, toks. rewrite (PR w p HP) in E. auto.
    - intros (N & w & p & toks & Hw & HP & E & It). split; auto. exists w, toks. rewrite (PR w p HP). auto. }
  unfold build_checked. rewrite EA, HW, HS. change (str_eqb (lit "word") (lit "char")) with false. change (str_eqb (lit "word") (lit "char_wb")) with false. change (str_eqb (lit "word") (lit "word")) with true. cbv iota. cbn [check_stop_list].
  unfold check_stops. assert (EL : match last with Some i => (i =? ident)%Z | None => false end = false).
  { destruct last as [i|]; auto. destruct (Z.eqb_spec i ident); [congruence|auto]. }
  rewrite EL, ET. destruct ts as [|t ts].
  - split; auto. left. split; auto. intros t Ht. apply IN' in Ht. destruct Ht.
  - split; auto. right. exists (t :: ts). split; auto. split; [discriminate|]. auto.
Qed.
(** After a word analyzer was built, no further warning is shown while the
    vectorizer keeps its stop_words object, whatever else is built. *)
Theorem C77_once : forall U c ident strict last an calls, tc_analyzer c = lit "word" -> build_analyzer U c = Ok an ->
  Forall (fun k => snd (fst k) = ident \/ tc_analyzer (fst (fst k)) <> lit "word") calls ->
  exists w, warnings_of U ((c, ident, strict) :: calls) last = w :: map (fun _ => []) calls.
Proof.
  intros U c ident strict last an calls HW HB H. cbn [warnings_of]. pose proof (build_word U c ident strict last an HW HB) as Q. destruct (build_checked U c ident strict last) as [[r w] l]. cbn [snd] in Q. subst l. exists w. f_equal.
  pose proof (quiet_after U calls ident H) as F. assert (L : forall l, length (warnings_of U calls l) = length calls).
  { clear. induction calls as [|[[c i] s] calls IH]; intro l; auto. cbn [warnings_of]. destruct (build_checked U c i s l) as [[r w] l']. cbn [length]. auto. }
  specialize (L (Some ident)). revert L F. generalize (warnings_of U calls (Some ident)) as ws. clear. induction calls as [|k calls IH]; intros [|w ws] L F; try discriminate; auto. inversion F; subst. cbn [map]. f_equal. apply IH; auto.
Qed.
(** Character analyzers never warn. *)
Theorem C77_char : forall U c ident strict last, tc_analyzer c <> lit "word" -> snd (fst (build_checked U c ident strict last)) = [].
Proof. intros U c ident strict last H. apply build_char. auto. Qed.
Print Assumptions C77_analyzer.
Print Assumptions C77_warning.
Print Assumptions C77_once.
Print Assumptions C77_char.
(** "ain't so" splits into two tokens, one of which is a stop word. *)
Example C77_ex : warnings_of ex_lib [(ex_conf "word" 1 1 (SWList [lit "so"; lit "Ain't so"; lit "a z"]), 5%Z, false); (ex_conf "word" 1 1 (SWList [lit "so"; lit "Ain't so"; lit "a z"]), 5%Z, false);
    (ex_conf "word" 1 1 (SWList [lit "so"]), 6%Z, false)] None = [[[lit "a"; lit "ain't"; lit "z"]]; []; []].
Proof. vm_compute. reflexivity. Qed.
