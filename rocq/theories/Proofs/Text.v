(** Text analysis and counting. *)
From Coq Require Import String Reals Lia Lra.
From Flocq Require Import Core BinarySingleNaN.
From Verif Require Import Model.Py Model.Arith Model.F64 Model.XR Model.Utils Model.Base Model.Preprocessing Model.Hash Model.Text.
From Verif Require Import Spec.Matrix Spec.Text Spec.Scaling.
From Verif Require Import Proofs.Lib Proofs.Laws Proofs.Round Proofs.Arrays Proofs.Encode.
Local Open Scope nat_scope.

Lemma windows_short : forall {T} k (l : list T), length l < k -> windows k l = [].
Proof.
  intros T k l. induction l as [|x l IH]; intro H; auto. cbn [windows]. destruct (Nat.leb_spec k (length (x :: l))); [lia|]. simpl. apply IH. simpl in H. lia.
Qed.
Lemma windows_map : forall {T} k (l : list T), 1 <= k -> windows k l = map (fun i => firstn k (skipn i l)) (seq 0 (length l + 1 - k)).
Proof.
  intros T k l Hk. induction l as [|x l IH]; [simpl; destruct k; [lia|destruct k; auto]|].
  cbn [windows]. destruct (Nat.leb_spec k (length (x :: l))) as [L|L].
  - replace (length (x :: l) + 1 - k) with (S (length l + 1 - k)) by (cbn [length] in *; lia). cbn [seq map skipn app]. f_equal. rewrite IH, <- seq_shift, map_map. auto.
  - replace (length (x :: l) + 1 - k) with 0 by lia. simpl. apply windows_short. simpl in L. lia.
Qed.
Lemma windows_1 : forall {T} (l : list T), windows 1 l = map (fun x => [x]) l.
Proof. intros T l. induction l as [|x l IH]; auto. cbn [windows]. destruct (Nat.leb_spec 1 (length (x :: l))); [|simpl in *; lia]. simpl. f_equal. auto. Qed.
Lemma windows_self : forall {T} (l : list T), l <> [] -> windows (length l) l = [l].
Proof.
  intros T [|x l] H; [congruence|]. cbn [windows]. rewrite Nat.leb_refl, firstn_all. simpl. f_equal. apply windows_short. auto.
Qed.
Lemma pyslice_window : forall {T} (l : list T) i k, i + k <= length l -> pyslice l (Z.of_nat i) (Z.of_nat i + Z.of_nat k) = firstn k (skipn i l).
Proof.
  intros T l i k H. unfold pyslice, clamp_index. rewrite <- !Nat2Z.inj_add.
  repeat match goal with |- context [(?a <? ?b)%Z] => destruct (Z.ltb_spec a b); try lia end.
  repeat match goal with |- context [Z.min ?a ?b] => rewrite (Z.min_l a b) by lia || rewrite (Z.min_r a b) by lia end.
  repeat match goal with |- context [Z.max ?a ?b] => rewrite (Z.max_l a b) by lia || rewrite (Z.max_r a b) by lia end.
  f_equal; [lia|f_equal; lia].
Qed.
Lemma pyslice_long : forall {T} (l : list T) k, length l <= k -> pyslice l 0 (0 + Z.of_nat k) = l.
Proof.
  intros T l k H. unfold pyslice, clamp_index.
  repeat match goal with |- context [(?a <? ?b)%Z] => destruct (Z.ltb_spec a b); try lia end.
  repeat match goal with |- context [Z.min ?a ?b] => rewrite (Z.min_l a b) by lia || rewrite (Z.min_r a b) by lia end.
  repeat match goal with |- context [Z.max ?a ?b] => rewrite (Z.max_l a b) by lia || rewrite (Z.max_r a b) by lia end.
  change (skipn (Z.to_nat 0) l) with l. apply firstn_all2. lia.
Qed.
Lemma zrange_upto : forall lo hi, (0 <= lo)%Z -> zrange lo (hi + 1) = map Z.of_nat (upto (Z.to_nat lo) (Z.to_nat hi)) \/ (hi < 0)%Z.
Proof.
  intros lo hi H. destruct (Z.ltb_spec hi 0); auto. left. unfold zrange, upto. replace (Z.to_nat (hi + 1 - lo)) with (Z.to_nat hi + 1 - Z.to_nat lo) by lia.
  apply list_eq_nth. intro n. rewrite !nth_error_map', !nth_error_seq. destruct (Nat.ltb_spec n (Z.to_nat hi + 1 - Z.to_nat lo)); auto. cbn [option_map]. f_equal. lia.
Qed.
(** Code windows of one length. *)
Lemma code_windows : forall {T} (l : list T) k, 1 <= k -> map (fun i => pyslice l i (i + Z.of_nat k)) (zrange 0 (Z.of_nat (length l) - Z.of_nat k + 1)) = windows k l.
Proof.
  intros T l k Hk. rewrite windows_map by auto. apply list_eq_nth. intro n. rewrite !nth_error_map', nth_error_zrange, nth_error_seq.
  destruct (Z.ltb_spec (Z.of_nat n) (Z.of_nat (length l) - Z.of_nat k + 1 - 0)), (Nat.ltb_spec n (length l + 1 - k)); try lia; auto. cbn [option_map]. f_equal. rewrite Z.add_0_l. apply pyslice_window. lia.
Qed.
Lemma grams_empty : forall {T} lo hi (l : list T), length l < lo -> grams lo hi l = [].
Proof.
  intros T lo hi l H. unfold grams, upto. induction (hi + 1 - lo) as [|n IH] in lo, H |- *; auto. cbn [seq map concat]. rewrite windows_short by auto. apply IH. lia.
Qed.
Lemma grams_cut : forall {T} lo hi (l : list T), length l <= hi -> grams lo hi l = grams lo (length l) l.
Proof.
  intros T lo hi l H. unfold grams, upto. destruct (Nat.leb_spec (length l + 1) lo).
  - fold (upto lo hi). fold (grams lo hi l). rewrite grams_empty by lia. replace (length l + 1 - lo) with 0 by lia. auto.
  - replace (hi + 1 - lo) with ((length l + 1 - lo) + (hi - length l)) by lia. rewrite seq_app, map_app, concat_app.
    replace (lo + (length l + 1 - lo)) with (length l + 1) by lia. assert (E : concat (map (fun k => windows k l) (seq (length l + 1) (hi - length l))) = []).
    { generalize (hi - length l). intro n. assert (G : forall a, length l < a -> concat (map (fun k => windows k l) (seq a n)) = []); [|apply G; lia]. induction n as [|n IH]; intros a Ha; auto. cbn [seq map concat]. rewrite windows_short by auto. apply IH. lia. }
    rewrite E, app_nil_r. auto.
Qed.
Lemma grams_cons : forall {T} lo hi (l : list T), lo <= hi -> grams lo hi l = windows lo l ++ grams (S lo) hi l.
Proof. intros T lo hi l H. unfold grams, upto. replace (hi + 1 - lo) with (S (hi + 1 - S lo)) by lia. reflexivity. Qed.
(** The double loop of the code, bounds lo' >= 1. *)
Lemma code_grams : forall {T} (l : list T) lo hi, (1 <= lo)%Z -> (0 <= hi)%Z ->
  concat (map (fun k => map (fun i => pyslice l i (i + k)) (zrange 0 (Z.of_nat (length l) - k + 1))) (zrange lo (Z.min (hi + 1) (Z.of_nat (length l) + 1)))) = grams (Z.to_nat lo) (Z.to_nat hi) l.
Proof.
  intros T l lo hi Hlo Hhi.
  assert (B : forall h, 0 <= h -> concat (map (fun k => map (fun i => pyslice l i (i + k)) (zrange 0 (Z.of_nat (length l) - k + 1))) (zrange lo (Z.of_nat h + 1))) = grams (Z.to_nat lo) h l).
  { intros h Hh. destruct (zrange_upto lo (Z.of_nat h)) as [E|E]; [lia| |lia]. rewrite E, Nat2Z.id, map_map. unfold grams. f_equal. apply map_ext_in. intros k Hk. apply code_windows. unfold upto in Hk. apply in_seq in Hk. lia. }
  destruct (Z.le_gt_cases hi (Z.of_nat (length l))).
  - rewrite Z.min_l by lia. replace hi with (Z.of_nat (Z.to_nat hi)) by lia. rewrite (B (Z.to_nat hi)) by lia. rewrite Nat2Z.id. auto.
  - rewrite Z.min_r by lia. rewrite (B (length l)) by lia. symmetry. apply grams_cut. lia.
Qed.

Lemma space_join_joined : forall l, space_join l = joined l.
Proof.
  induction l as [|w l IH]; auto. destruct l as [|x l]; [simpl; rewrite app_nil_r; auto|].
  change (space_join (w :: x :: l)) with (w ++ 32%Z :: space_join (x :: l)). rewrite IH. reflexivity.
Qed.
Lemma unstopped_filter : forall st l m, unstopped st l m <-> m = filter (fun w => negb (mem str_eqb w st)) l.
Proof.
  intros st l. induction l as [|w l IH]; intro m; simpl.
  - split; intro H; [inversion H; auto|subst; constructor].
  - destruct (mem str_eqb w st) eqn:E; simpl.
    + apply (mem_in str_eqb str_eqb_ok) in E. rewrite <- IH. split; intro H; [inversion H; subst; auto; contradiction|constructor; auto].
    + apply (mem_false str_eqb str_eqb_ok) in E. split; intro H; [inversion H; subst; [contradiction|f_equal; apply IH; auto]|subst; constructor; auto; apply IH; auto].
Qed.
Lemma word_ngrams_ok : forall lo hi stop toks toks', (1 <= lo <= hi)%Z ->
  (match stop with None => toks' = toks | Some st => unstopped st toks toks' end) ->
  word_ngrams lo hi stop toks = map joined (grams (Z.to_nat lo) (Z.to_nat hi) toks').
Proof.
  intros lo hi stop toks toks' H HS. unfold word_ngrams.
  set (t0 := match stop with None => _ | Some _ => _ end). assert (E : t0 = toks') by (unfold t0; destruct stop; [symmetry; apply unstopped_filter; auto|auto]). rewrite E. clear t0 E HS.
  assert (W1 : map joined (windows 1 toks') = toks') by (rewrite windows_1, map_map; rewrite <- (map_id toks') at 2; apply map_ext; intro w; simpl; apply app_nil_r).
  assert (J : forall l', (2 <= l' \/ 1 <= l')%Z -> concat (map (fun k => map (fun i => space_join (pyslice toks' i (i + k))) (zrange 0 (Z.of_nat (length toks') - k + 1))) (zrange l' (Z.min (hi + 1) (Z.of_nat (length toks') + 1)))) = map joined (grams (Z.to_nat l') (Z.to_nat hi) toks')).
  { intros l' Hl. rewrite <- (code_grams toks' l' hi) by lia. rewrite concat_map, map_map. f_equal. apply map_ext. intro k. rewrite map_map. apply map_ext. intro i. apply space_join_joined. }
  destruct (Z.eqb_spec hi 1).
  - assert (lo = 1)%Z by lia. subst. change (Z.to_nat 1) with 1. rewrite grams_cons, map_app, W1 by lia. unfold grams, upto. simpl. rewrite app_nil_r. auto.
  - destruct (Z.eqb_spec lo 1).
    + subst lo. rewrite J by lia. change (Z.to_nat 1) with 1. rewrite (grams_cons 1) by lia. rewrite map_app, W1. auto.
    + rewrite J by lia. auto.
Qed.

Section Chars.
  Variable U : textlib.
  Notation space := (x_space U).
  Lemma ws_ok : forall n s, length s <= n ->
    collapsed space s (ws_collapse U None s) /\
    (forall c0, space c0 = true -> collapsed space (c0 :: s) (ws_collapse U (Some (c0, false)) s)) /\
    (forall c0 run, Forall (fun c => space c = true) run -> 2 <= length run -> collapsed space (run ++ s) (ws_collapse U (Some (c0, true)) s)).
  Proof.
    induction n as [|n IH]; intros s L.
    - destruct s; [|simpl in L; lia]. simpl. split; [constructor|]. split.
      + intros c0 H. apply cl_one; auto; [exact I|constructor].
      + intros c0 run F L2. apply cl_run; auto; [exact I|constructor].
    - destruct s as [|c s]; [apply IH; simpl; lia|]. simpl in L. destruct (IH s ltac:(lia)) as (I1 & I2 & I3). simpl. destruct (space c) eqn:E.
      + split; [apply I2; auto|]. split.
        * intros c0 H. change (c0 :: c :: s) with ([c0; c] ++ s). apply I3; [repeat constructor; auto|simpl; lia].
        * intros c0 run F L2. replace (run ++ c :: s) with ((run ++ [c]) ++ s) by (rewrite <- app_assoc; auto). apply I3; [apply Forall_app; split; auto|rewrite app_length; simpl; lia].
      + split; [apply cl_char; auto|]. split.
        * intros c0 H. simpl. apply cl_one; auto. apply cl_char; auto.
        * intros c0 run F L2. simpl. apply cl_run; auto. apply cl_char; auto.
  Qed.
  Lemma collapsed_fun : forall s t, collapsed space s t -> t = white_spaces_sub U s.
  Proof.
    intros s t H. unfold white_spaces_sub.
    assert (G : forall run s, Forall (fun c => space c = true) run -> no_space_first space s -> forall c0, ws_collapse U (Some (c0, true)) (run ++ s) = 32%Z :: ws_collapse U None s).
    { induction run as [|c run IH]; intros s0 F N c0.
      - destruct s0 as [|c s0]; auto. simpl in N. simpl. rewrite N. auto.
      - inversion F; subst. simpl. rewrite H2. apply IH; auto. }
    induction H as [|c s t E H IH|c s t E N H IH|run s t F L N H IH]; simpl; auto.
    - rewrite E. simpl. f_equal. auto.
    - rewrite E. destruct s as [|c' s]; simpl; [subst; auto|]. simpl in N. rewrite N. simpl. f_equal. rewrite IH. simpl. rewrite N. auto.
    - destruct run as [|c1 [|c2 run]]; try (simpl in L; lia). inversion F as [|? ? F1 F']; subst. inversion F' as [|? ? F2 F'']; subst. simpl. rewrite F1, F2. rewrite G by auto. auto.
  Qed.
  Lemma char_ngrams_ok : forall lo hi text s, (1 <= lo <= hi)%Z -> collapsed space text s ->
    char_ngrams U lo hi text = grams (Z.to_nat lo) (Z.to_nat hi) s.
  Proof.
    intros lo hi text s H HC. apply collapsed_fun in HC. unfold char_ngrams. rewrite <- HC. clear HC.
    destruct (Z.eqb_spec lo 1).
    - subst lo. rewrite code_grams by lia. rewrite <- windows_1. change (Z.to_nat 1) with 1. rewrite (grams_cons 1) by lia. auto.
    - rewrite code_grams by lia. auto.
  Qed.

  (** words *)
  Lemma words_fun : forall s ws, words space s ws -> ws = str_split U s.
  Proof.
    intros s ws H. unfold str_split.
    assert (G : forall w s cur, Forall (fun c => space c = false) w -> split_ws U cur (w ++ s) = split_ws U (cur ++ w) s).
    { induction w as [|c w IH]; intros s0 cur F; [rewrite app_nil_r; auto|]. inversion F as [|? ? F1 F']; subst. simpl. rewrite F1. rewrite IH by auto. rewrite <- app_assoc. auto. }
    induction H as [|c s ws E H IH|w s ws N F HS H IH]; auto.
    - simpl. rewrite E. auto.
    - rewrite G by auto. simpl. destruct s as [|c s].
      + simpl. destruct w; [congruence|]. inversion H; subst; auto; destruct w0; try congruence; discriminate.
      + simpl. rewrite HS. destruct w; [congruence|]. f_equal. rewrite IH. simpl. rewrite HS. auto.
  Qed.
  Lemma words_split : forall n s, length s <= n -> words space s (str_split U s) /\
    (forall cur, cur <> [] -> Forall (fun c => space c = false) cur -> words space (cur ++ s) (split_ws U cur s)).
  Proof.
    induction n as [|n IH]; intros s L.
    - destruct s; [|simpl in L; lia]. split; [constructor|]. intros cur N F. simpl. destruct cur; [congruence|]. apply wd_word; auto. constructor.
    - destruct s as [|c s]; [apply IH; simpl; lia|]. simpl in L. destruct (IH s ltac:(lia)) as (I1 & I2). unfold str_split in *. simpl. destruct (space c) eqn:E.
      + split; [apply wd_space; auto|]. intros cur N F. destruct cur as [|a cur'] eqn:Q; [congruence|]. rewrite <- Q in *. apply wd_word; auto. apply wd_space; auto.
      + split; [apply (I2 [c]); [discriminate|auto]|]. intros cur N F. replace (cur ++ c :: s) with ((cur ++ [c]) ++ s) by (rewrite <- app_assoc; auto). apply I2; [destruct cur; discriminate|apply Forall_app; auto].
  Qed.
  Lemma wb_word_ok : forall n lo hi (w : pystr), n = hi + 1 - lo -> 1 <= lo <= hi -> w <> [] ->
    wb_word w (map Z.of_nat (upto lo hi)) = if length w <? lo then [w] else grams lo hi w.
  Proof.
    induction n as [|n IH]; intros lo hi w En H N; [lia|]. unfold upto. rewrite <- En. cbn [seq map wb_word].
    destruct (Nat.ltb_spec (length w) lo) as [L|L].
    - rewrite Z.max_l by lia. change (zrange 0 (0 + 1)) with [0%Z]. cbn [map]. rewrite pyslice_long by lia. reflexivity.
    - destruct (Nat.eq_dec (length w) lo) as [E|E].
      + rewrite Z.max_l by lia. change (zrange 0 (0 + 1)) with [0%Z]. cbn [map]. rewrite pyslice_long by lia. cbn [Z.eqb app].
        rewrite grams_cons by lia. rewrite <- E at 1. rewrite windows_self by auto. rewrite grams_empty by lia. auto.
      + rewrite Z.max_r by lia. rewrite code_windows by lia. destruct (Z.eqb_spec (Z.of_nat (length w) - Z.of_nat lo) 0); [lia|].
        rewrite grams_cons by lia. f_equal. destruct n as [|n].
        * simpl. unfold grams, upto. replace (hi + 1 - S lo) with 0 by lia. auto.
        * replace (S n) with (hi + 1 - S lo) by lia. change (seq (S lo) (hi + 1 - S lo)) with (upto (S lo) hi). rewrite IH by (auto; lia). destruct (Nat.ltb_spec (length w) (S lo)); [lia|auto].
  Qed.
  Lemma char_wb_ok : forall lo hi text s ws, (1 <= lo <= hi)%Z -> collapsed space text s -> words space s ws ->
    char_wb_ngrams U lo hi text = concat (map (padded_grams (Z.to_nat lo) (Z.to_nat hi)) ws).
  Proof.
    intros lo hi text s ws H HC HW. apply collapsed_fun in HC. apply words_fun in HW. unfold char_wb_ngrams. rewrite <- HC, <- HW. f_equal. apply map_ext. intro w.
    destruct (zrange_upto lo hi) as [E|E]; [lia| |lia]. rewrite E. unfold padded_grams. apply (wb_word_ok (Z.to_nat hi + 1 - Z.to_nat lo)); try lia. discriminate.
  Qed.
End Chars.

(** Counting. *)
Section Count.
  Context {A : arith}.
  (** one + one + ... + one, n times (n >= 1) *)
  Fixpoint ones (n : nat) : A := match n with 0 => zero | 1 => one | S n' => add (ones n') one end.
  Fixpoint hits (v : dict pystr Z) (j : Z) (fs : list pystr) : nat :=
    match fs with
    | [] => 0
    | f :: fs' => (match dlookup str_eqb f v with Some k => if (k =? j)%Z then 1 else 0 | None => 0 end) + hits v j fs'
    end.
  Definition cstep (v : dict pystr Z) (cnt : dict Z A) (f : pystr) : dict Z A :=
    match dlookup str_eqb f v with
    | None => cnt
    | Some j => match dlookup Z.eqb j cnt with None => dset Z.eqb j one cnt | Some w => dset Z.eqb j (add w one) cnt end
    end.
  Definition cval (n : nat) : option A := match n with 0 => None | _ => Some (ones n) end.
  Lemma count_inv : forall v fs cnt k, NoDup (map fst cnt) -> (forall j, dlookup Z.eqb j cnt = cval (k j)) ->
    NoDup (map fst (fold_left (cstep v) fs cnt)) /\ forall j, dlookup Z.eqb j (fold_left (cstep v) fs cnt) = cval (k j + hits v j fs).
  Proof.
    intros v fs. induction fs as [|f fs IH]; intros cnt k ND H; simpl.
    - split; auto. intro j. rewrite Nat.add_0_r. auto.
    - unfold cstep at 2 4. destruct (dlookup str_eqb f v) as [j0|] eqn:E.
      + pose proof (H j0) as H0.
        assert (ST : exists w, match dlookup Z.eqb j0 cnt with None => dset Z.eqb j0 one cnt | Some w => dset Z.eqb j0 (add w one) cnt end = dset Z.eqb j0 w cnt /\ cval (k j0 + 1) = Some w).
        { destruct (dlookup Z.eqb j0 cnt) as [w|] eqn:Q; destruct (k j0) as [|n] eqn:Ek; try discriminate.
          - injection H0 as ->. exists (add (ones (S n)) one). split; auto. rewrite Nat.add_1_r. reflexivity.
          - exists one. auto. }
        destruct ST as (w & EQ & CV). rewrite EQ.
        destruct (IH (dset Z.eqb j0 w cnt) (fun j => k j + if (j0 =? j)%Z then 1 else 0)) as [I1 I2].
        * apply (NoDup_dset Z.eqb Zeqb_ok); auto.
        * intro j. rewrite (dlookup_dset Z.eqb Zeqb_ok). rewrite (Z.eqb_sym j j0). destruct (Z.eqb_spec j0 j); [subst; auto|rewrite Nat.add_0_r; auto].
        * split; auto. intro j. rewrite I2. f_equal. lia.
      + destruct (IH cnt k ND H) as [I1 I2]. split; auto.
  Qed.
  Lemma count_ok' : forall v fs, NoDup (map fst (count_features (A:=A) v fs)) /\ forall j, dlookup Z.eqb j (count_features (A:=A) v fs) = cval (hits v j fs).
  Proof. intros v fs. apply (count_inv v fs [] (fun _ => 0)); [constructor|auto]. Qed.
  Lemma hits_occ : forall v t j fs, vocabulary v -> In (t, j) v -> hits v j fs = occurrences t fs.
  Proof.
    intros v t j fs (N1 & N2 & _) I. induction fs as [|f fs IH]; auto. simpl. rewrite IH. f_equal.
    destruct (list_eq_dec Z.eq_dec f t) as [->|N].
    - rewrite (dlookup_nodup str_eqb str_eqb_ok _ _ _ N1 I), Z.eqb_refl. auto.
    - destruct (dlookup str_eqb f v) as [k|] eqn:E; auto. apply (dlookup_in str_eqb str_eqb_ok) in E. destruct (Z.eqb_spec k j) as [->|]; auto. exfalso. apply N.
      clear - N2 E I. induction v as [|[t' j'] v IH]; [destruct E|]. simpl in N2. inversion N2 as [|? ? Nj Nv]; subst. destruct E as [E|E], I as [I|I].
      + congruence.
      + injection E as -> ->. exfalso. apply Nj. apply in_map_iff. exists (t, j). auto.
      + injection I as -> ->. exfalso. apply Nj. apply in_map_iff. exists (f, j). auto.
      + auto.
  Qed.
  Lemma hits_zero : forall v j fs, (forall t, ~ In (t, j) v) -> hits v j fs = 0.
  Proof.
    intros v j fs H. induction fs as [|f fs IH]; auto. simpl. rewrite IH. destruct (dlookup str_eqb f v) as [k|] eqn:E; auto. apply (dlookup_in str_eqb str_eqb_ok) in E. destruct (Z.eqb_spec k j) as [->|]; auto. exfalso. eapply H; eauto.
  Qed.
  Lemma occ_le : forall t fs, occurrences t fs <= length fs.
  Proof. intros t fs. induction fs as [|f fs IH]; simpl; auto. destruct (list_eq_dec Z.eq_dec f t); lia. Qed.
  Lemma count_term_row : forall v fs (g : nat -> A), vocabulary v -> (forall t, occurrences t fs <> 0 -> ones (occurrences t fs) = g (occurrences t fs)) -> is0 (g 0) ->
    term_row v (fun t => g (occurrences t fs)) (count_features (A:=A) v fs).
  Proof.
    intros v fs g V G G0. destruct (count_ok' v fs) as [ND H]. split; auto. split.
    - intros j x I. apply (dlookup_nodup Z.eqb Zeqb_ok) in I; auto. rewrite H in I.
      assert (EX : exists t, In (t, j) v).
      { destruct (in_dec Z.eq_dec j (map snd v)) as [Q|Q].
        - apply in_map_iff in Q. destruct Q as ([t j'] & <- & Q). eauto.
        - rewrite hits_zero in I; [discriminate|]. intros t Ht. apply Q. apply in_map_iff. exists (t, j). auto. }
      destruct EX as [t It]. exists t. split; auto. rewrite (hits_occ v t j fs V It) in I. unfold cval in I. destruct (occurrences t fs) eqn:E; [discriminate|]. injection I as <-. change (ones (S n) = g (S n)). rewrite <- E. apply G. lia.
    - intros t j It. pose proof (H j) as Hj. rewrite (hits_occ v t j fs V It) in Hj. destruct (occurrences t fs) as [|n] eqn:E.
      + right. split; auto. apply (dlookup_none Z.eqb Zeqb_ok). auto.
      + left. apply (dlookup_in Z.eqb Zeqb_ok). rewrite Hj. change (Some (ones (S n)) = Some (g (S n))). rewrite <- E. f_equal. apply G. lia.
  Qed.
  Lemma binary_term_row : forall v fs, is0 (zero : A) -> vocabulary v ->
    term_row v (fun t => match occurrences t fs with 0 => zero | _ => one end) (map (fun kv : Z * A => (fst kv, one : A)) (count_features (A:=A) v fs)).
  Proof.
    intros v fs Z0 V. destruct (count_ok' v fs) as [ND H]. split; [rewrite map_map; exact ND|]. split.
    - intros j x I. apply in_map_iff in I. destruct I as ([j' w] & E & I). cbn [fst] in E. injection E as <- <-. apply (dlookup_nodup Z.eqb Zeqb_ok) in I; auto. rewrite H in I.
      assert (EX : exists t, In (t, j') v).
      { destruct (in_dec Z.eq_dec j' (map snd v)) as [Q|Q].
        - apply in_map_iff in Q. destruct Q as ([t j''] & <- & Q). eauto.
        - rewrite hits_zero in I; [discriminate|]. intros t Ht. apply Q. apply in_map_iff. exists (t, j'). auto. }
      destruct EX as [t It]. exists t. split; auto. rewrite (hits_occ v t j' fs V It) in I. destruct (occurrences t fs); [discriminate|auto].
    - intros t j It. pose proof (H j) as Hj. rewrite (hits_occ v t j fs V It) in Hj. destruct (occurrences t fs) as [|n] eqn:E.
      + right. split; auto. rewrite map_map. apply (dlookup_none Z.eqb Zeqb_ok). auto.
      + left. apply in_map_iff. exists (j, ones (S n)). split; auto. apply (dlookup_in Z.eqb Zeqb_ok). auto.
  Qed.
End Count.

(** On doubles the counts are exact up to 2^53, in exact arithmetic always. *)
Lemma f_succ : forall n : Z, (0 <= n)%Z -> (n + 1 <= 2 ^ 53)%Z -> f_add (f_ofZE n 0) (f_ofZE 1 0) = f_ofZE (n + 1) 0.
Proof.
  intros n H0 H. assert (E : b2x (f_add (f_ofZE n 0) (f_ofZE 1 0)) = b2x (f_ofZE (n + 1) 0)).
  { rewrite f_add_x, !f_ofZ_x by lia. simpl. rewrite <- plus_IZR. apply fround_IZR. lia. }
  rewrite (f_ofZ_x (n + 1)) in E by lia. pose proof (f_ofZ_x (n + 1) ltac:(lia)) as E2.
  revert E E2. generalize (f_add (f_ofZE n 0) (f_ofZE 1 0)) (f_ofZE (n + 1) 0). intros x y E1 E2.
  assert (P : (IZR (n + 1) <> 0)%R) by (apply IZR_neq; lia).
  assert (S : forall z : f64, b2x z = XFin (IZR (n + 1)) -> is_finite_strict z = true /\ B2R z = IZR (n + 1)).
  { intros z Ez. destruct z as [s|[]| |s m e B]; try discriminate.
    - injection Ez as Ez. exfalso. apply P. rewrite <- Ez. reflexivity.
    - rewrite b2x_fin in Ez by auto. injection Ez as Ez. auto. }
  destruct (S x E1) as [S1 R1], (S y E2) as [S2 R2]. apply B2R_inj; auto. congruence.
Qed.
Lemma ones_F64 : forall m n, (Z.of_nat n <= 2 ^ 53)%Z -> ones (A:=F64 m) n = ofnat n.
Proof.
  intros m n. induction n as [|n IH]; intro H; [reflexivity|]. destruct n as [|n]; [reflexivity|].
  change (ones (A:=F64 m) (S (S n))) with (f_add (ones (A:=F64 m) (S n)) (f_ofZE 1 0)). rewrite IH by lia.
  transitivity (f_ofZE (Z.of_nat (S n) + 1) 0); [apply f_succ; lia|]. change (f_ofZE (Z.of_nat (S n) + 1) 0 = f_ofZE (Z.of_nat (S (S n))) 0). f_equal. lia.
Qed.

(** tf-idf. *)
Section Tfidf.
  Context {A : arith}.
  Definition idf_cell (idf : list A) (k : Z) (v : A) : res A := w <- lget idf k ;; Ok (mul v w).
  Lemma idf_row_ok : forall idf d done d', dmapM (idf_cell idf) d = Ok d' -> idf_row idf done d = (Ok (done ++ d'), done ++ d').
  Proof.
    intros idf d. induction d as [|[k v] d IH]; intros done d' H.
    - injection H as <-. rewrite app_nil_r. auto.
    - unfold dmapM in H. cbn [mapM fst snd] in H. cbn [idf_row]. unfold idf_cell at 1 in H. destruct (lget idf k) as [w|] eqn:E; [|discriminate]. cbn [bind] in H. inv_bind H. injection H as <-.
      rewrite (IH (done ++ [(k, mul v w)]) a); [rewrite <- app_assoc; auto|exact E0].
  Qed.
  Lemma idf_rows_ok : forall idf rows rows', mapM (dmapM (idf_cell idf)) rows = Ok rows' -> idf_rows idf (map Di rows) = (Ok tt, map Di rows').
  Proof.
    intros idf rows. induction rows as [|d rows IH]; intros rows' H; cbn [mapM] in H.
    - injection H as <-. auto.
    - inv_bind H. inv_bind H. injection H as <-. cbn [map idf_rows]. rewrite (idf_row_ok idf d [] a E). rewrite (IH a0 E0). auto.
  Qed.
  Lemma tfidf_ok : forall (t : tfidf A) rows rows' n dt, rows <> [] -> tf_sublinear t = false -> tf_use_idf t = true -> tf_expected t = n ->
    mapM (dmapM (idf_cell (tf_idf t))) rows = Ok rows' ->
    tfidf_transform t (Sp rows (Some n) dt) = (match tf_norm t with Some nm => normalize_pure (Sp rows' (Some n) dt) nm 1 | None => Ok (Sp rows' (Some n) dt) end, Sp rows' (Some n) dt).
  Proof.
    intros t rows rows' n dt NR S I E H. unfold tfidf_transform. unfold check_array, shape. cbn [issparse bind items].
    destruct rows as [|d0 rs]; [congruence|]. cbn [map bind]. change (Di d0 :: map Di rs) with (map Di (d0 :: rs)). set (rows := d0 :: rs) in *. rewrite S, I, E, Z.eqb_refl. cbn [items].
    rewrite (idf_rows_ok _ _ _ H). cbn [with_items]. rewrite map_map, map_id. auto.
  Qed.
End Tfidf.
