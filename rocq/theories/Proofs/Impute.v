(** Imputation. *)
From Coq Require Import String Lia Sorted.
From Verif Require Import Model.Py Model.Arith Model.Utils Model.Base Model.Impute.
From Verif Require Import Spec.Matrix Spec.Impute.
From Verif Require Import Proofs.Lib Proofs.Arrays Proofs.Ensemble Proofs.Encode Proofs.Scaling.
Local Open Scope nat_scope.

(** Increasing lists with the same elements are equal. *)
Lemma sorted_ext : forall l m : list nat, StronglySorted lt l -> StronglySorted lt m -> (forall j, In j l <-> In j m) -> l = m.
Proof.
  induction l as [|a l IH]; intros [|b m] Sl Sm H.
  - auto.
  - exfalso. apply (proj2 (H b)). left; auto.
  - exfalso. apply (proj1 (H a)). left; auto.
  - apply StronglySorted_inv in Sl, Sm. destruct Sl as [Sl Fl], Sm as [Sm Fm]. rewrite Forall_forall in Fl, Fm.
    assert (a = b).
    { destruct (proj1 (H a) (or_introl eq_refl)) as [E|I]; auto. destruct (proj2 (H b) (or_introl eq_refl)) as [E|J]; auto. specialize (Fm a I). specialize (Fl b J). lia. }
    subst b. f_equal. apply IH; auto. intro j. split; intro I.
    + destruct (proj1 (H j) (or_intror I)) as [->|J]; auto. specialize (Fl j I). lia.
    + destruct (proj2 (H j) (or_intror I)) as [->|J]; auto. specialize (Fm j I). lia.
Qed.
Lemma forallb_filter_id : forall {T} (P : T -> bool) l, forallb P l = true -> filter P l = l.
Proof. intros T P l. induction l as [|x l IH]; simpl; auto. intro H. apply andb_true_iff in H. destruct H as [-> H]. f_equal; auto. Qed.
Lemma seq_sorted : forall n a, StronglySorted lt (seq a n).
Proof. induction n as [|n IH]; intro a; simpl; constructor; auto. apply Forall_forall. intros x H. apply in_seq in H. lia. Qed.
Lemma filter_sorted : forall P l, StronglySorted lt l -> StronglySorted lt (filter P l).
Proof.
  intros P l. induction 1 as [|a l Sl IH Fl]; simpl; [constructor|]. destruct (P a); auto. constructor; auto.
  apply Forall_forall. intros x H. apply filter_In in H. rewrite Forall_forall in Fl. apply Fl, H.
Qed.
Lemma columns_filter : forall c P fs, columns c fs -> (forall j, j < c -> (P j = true <-> In j fs)) -> filter P (seq 0 c) = fs.
Proof.
  intros c P fs [S F] H. apply sorted_ext; auto; [apply filter_sorted, seq_sorted|]. intro j. rewrite filter_In, in_seq. rewrite Forall_forall in F. split.
  - intros [L Q]. apply H; auto; lia.
  - intro I. split; [specialize (F j I); lia|]. apply H; auto.
Qed.
Lemma columns_full : forall c fs, columns c fs -> c <= length fs -> fs = seq 0 c.
Proof.
  intros c fs [S F] L. apply sorted_ext; auto; [apply seq_sorted|]. intro j. rewrite Forall_forall in F. split; intro I; [apply in_seq; specialize (F j I); lia|].
  assert (ND : NoDup fs).
  { clear - S. induction S as [|a l Sl IH Fl]; constructor; auto. intro I. rewrite Forall_forall in Fl. specialize (Fl a I). lia. }
  apply (NoDup_length_incl ND (l' := seq 0 c)); auto.
  - rewrite seq_length. auto.
  - intros x Hx. apply in_seq. specialize (F x Hx). lia.
Qed.

Section Imp.
  Context {A : arith}.
  Lemma to_impute_ok : forall (mk v : A), to_impute mk v = true <-> missing mk v.
  Proof. intros mk v. unfold to_impute, missing. destruct (isnan mk); split; intro H; auto; destruct H as [[? ?]|[? ?]]; auto; congruence. Qed.
  Lemma to_impute_no : forall (mk v : A), to_impute mk v = false <-> ~ missing mk v.
  Proof. intros mk v. rewrite <- to_impute_ok. destruct (to_impute mk v); intuition congruence. Qed.
  Lemma flag_iff : forall (mk v x : A), flag mk v x <-> x = of_bool (to_impute mk v).
  Proof.
    intros mk v x. unfold flag, of_bool. destruct (to_impute mk v) eqn:E.
    - apply to_impute_ok in E. intuition.
    - apply to_impute_no in E. intuition.
  Qed.
  Lemma filled_iff : forall (mk s v x : A), filled mk s v x <-> x = if to_impute mk v then s else v.
  Proof.
    intros mk s v x. unfold filled. destruct (to_impute mk v) eqn:E.
    - apply to_impute_ok in E. intuition.
    - apply to_impute_no in E. intuition.
  Qed.

  Lemma flag_row_iff : forall (mk : A) fs row out d, Forall (fun j => j < length row) fs ->
    (flag_row mk fs row out <-> out = map (fun j => of_bool (to_impute mk (nth j row d))) fs).
  Proof.
    intros mk fs row out d. unfold flag_row. revert out. induction fs as [|j fs IH]; intros out F.
    - split; intro H; [inversion H; auto|subst; constructor].
    - inversion F as [|? ? Fj F']; subst. cbn [map]. split; intro H.
      + inversion H as [|? x ? out' (v & Ev & Hx) H']; subst. rewrite flag_iff in Hx. rewrite (nth_error_nth _ _ _ Ev). f_equal; auto. apply IH; auto.
      + subst out. constructor; [|apply IH; auto]. exists (nth j row d). split; [apply nth_error_nth'; auto|]. apply flag_iff; auto.
  Qed.
  Lemma filled_row_iff : forall (mk : A) stats ks row out d, Forall (fun j => j < length row) ks -> length stats = length row ->
    (filled_row mk stats ks row out <-> out = map (fun j => if to_impute mk (nth j row d) then nth j stats d else nth j row d) ks).
  Proof.
    intros mk stats ks row out d F L. unfold filled_row. revert out. induction ks as [|j ks IH]; intros out.
    - split; intro H; [inversion H; auto|subst; constructor].
    - inversion F as [|? ? Fj F']; subst. cbn [map]. split; intro H.
      + inversion H as [|? x ? out' (v & s & Ev & Es & Hx) H']; subst. rewrite filled_iff in Hx. rewrite (nth_error_nth _ _ _ Ev), (nth_error_nth _ _ _ Es). f_equal; auto. apply IH; auto.
      + subst out. constructor; [|apply IH; auto]. exists (nth j row d), (nth j stats d). split; [apply nth_error_nth'; auto|]. split; [apply nth_error_nth'; lia|]. apply filled_iff; auto.
  Qed.

  Lemma shape1_ll : forall (M : list (list A)) r c, rect M r c -> 1 <= r -> shape1 (ll M) = Ok (Some (Z.of_nat c)).
  Proof. intros M r c [L R] Hr. destruct M as [|row M]; [simpl in L; lia|]. inversion R; subst. reflexivity. Qed.

  (** The indicator. *)
  Definition missb (mk : A) (M : list (list A)) : list (list bool) := map (map (to_impute mk)) M.
  Definition counts (mk : A) (M : list (list A)) : list Z := map count_true (zipstar (missb mk M)).
  Definition new_counts (t : indicator A) (M : list (list A)) : list Z :=
    filter (fun f => negb (mem Z.eqb f (mi_fitted t))) (filter (fun a => negb (a =? 0)%Z) (counts (mi_missing t) M)).

  Lemma filter_map : forall {X Y} (f : X -> Y) (P : Y -> bool) l, filter P (map f l) = map f (filter (fun x => P (f x)) l).
  Proof. intros X Y f P l. induction l as [|x l IH]; simpl; auto. destruct (P (f x)); simpl; congruence. Qed.
  Lemma combine_range : forall {X} (d : X) (l : list X), combine (range (length l)) l = map (fun j => (j, nth j l d)) (seq 0 (length l)).
  Proof.
    intros X d l. apply list_eq_nth. intro i. unfold range. rewrite nth_error_combine, nth_error_map', nth_error_seq. destruct (Nat.ltb_spec i (length l)).
    - rewrite (nth_error_nth' l d) by auto. auto.
    - destruct (nth_error l i); auto.
  Qed.

  Lemma mask_ll : forall (mk : A) M, mapM (mapM (fun v : A => Ok (to_impute mk v))) M = Ok (missb mk M).
  Proof. intros mk M. unfold missb. rewrite <- mapM_Ok. apply mapM_ext. intros row _. apply mapM_Ok. Qed.

  Lemma ind_only : forall (t : indicator A) (M : list (list A)) r c fs d, rect M r c -> 1 <= r -> mi_features t = lit "missing-only" ->
    mi_nfeat t = Z.of_nat c -> columns c fs -> mi_fitted t = map Z.of_nat fs ->
    indicator_transform t (ll M) =
      (guard (negb (mi_error t && match new_counts t M with [] => false | _ => true end)) ValueError ;;
       Ok (map (fun row => map (fun j => of_bool (to_impute (mi_missing t) (nth j row d))) fs) M)).
  Proof.
    intros t M r c fs d RM Hr HF HN HC HE. unfold indicator_transform. rewrite check_ll by (destruct M, RM; simpl in *; [lia|discriminate]). cbn [bind].
    rewrite (shape1_ll M r c RM Hr). cbn [bind]. rewrite HN, Z.eqb_refl. cbn [guard bind].
    unfold missing_info. rewrite apply_2d_ll. rewrite mask_ll. cbn [bind]. rewrite HF.
    change (str_eqb (lit "missing-only") (lit "missing-only")) with true. cbv iota. cbn [bind]. fold (missb (mi_missing t) M). fold (counts (mi_missing t) M). fold (new_counts t M).
    destruct (guard _ _); auto. cbn [bind]. rewrite HE, map_length.
    assert (RR : forall row, In row M -> length row = c) by (destruct RM as [_ R]; rewrite Forall_forall in R; auto).
    destruct (Z.ltb_spec (Z.of_nat (length fs)) (Z.of_nat c)) as [L|L]; f_equal.
    - unfold missb. rewrite map_map. apply map_ext_in. intros row Hrow. rewrite (combine_range false). rewrite filter_map, map_map. cbn [fst snd]. rewrite map_length, (RR row Hrow).
      erewrite columns_filter; [|exact HC|].
      + apply map_ext_in. intros j Hj. f_equal. destruct HC as [_ F]. rewrite Forall_forall in F. specialize (F j Hj).
        rewrite (nth_indep _ false (to_impute (mi_missing t) d)) by (rewrite map_length, (RR row Hrow); auto). apply map_nth.
      + intros j Hj. cbn [fst]. rewrite (mem_in Z.eqb Zeqb_ok), in_map_iff. split; [intros (j' & E & I); assert (j' = j) by lia; subst; auto|eauto].
    - rewrite (columns_full c fs HC) by lia. unfold missb. rewrite map_map. apply map_ext_in. intros row Hrow. rewrite map_map.
      apply list_eq_nth. intro j. rewrite !nth_error_map', nth_error_seq. destruct (Nat.ltb_spec j c).
      + rewrite (nth_error_nth' row d) by (rewrite (RR row Hrow); auto). auto.
      + replace (nth_error row j) with (@None A); auto. symmetry. apply nth_error_None. rewrite (RR row Hrow). auto.
  Qed.
  Lemma ind_all : forall (t : indicator A) (M : list (list A)) r c d, rect M r c -> 1 <= r -> mi_features t = lit "all" ->
    mi_nfeat t = Z.of_nat c ->
    indicator_transform t (ll M) = Ok (map (fun row => map (fun j => of_bool (to_impute (mi_missing t) (nth j row d))) (seq 0 c)) M).
  Proof.
    intros t M r c d RM Hr HF HN. unfold indicator_transform. rewrite check_ll by (destruct M, RM; simpl in *; [lia|discriminate]). cbn [bind].
    rewrite (shape1_ll M r c RM Hr). cbn [bind]. rewrite HN, Z.eqb_refl. cbn [guard bind].
    unfold missing_info. rewrite apply_2d_ll. rewrite mask_ll. cbn [bind]. rewrite HF.
    change (str_eqb (lit "all") (lit "missing-only")) with false. change (str_eqb (lit "all") (lit "all")) with true. cbv iota. rewrite (shape1_ll M r c RM Hr). cbn [bind]. f_equal.
    assert (RR : forall row, In row M -> length row = c) by (destruct RM as [_ R]; rewrite Forall_forall in R; auto).
    unfold missb. rewrite map_map. apply map_ext_in. intros row Hrow. rewrite map_map.
    apply list_eq_nth. intro j. rewrite !nth_error_map', nth_error_seq. destruct (Nat.ltb_spec j c).
    - rewrite (nth_error_nth' row d) by (rewrite (RR row Hrow); auto). auto.
    - replace (nth_error row j) with (@None A); auto. symmetry. apply nth_error_None. rewrite (RR row Hrow). auto.
  Qed.
  Lemma ind_width : forall (t : indicator A) (M : list (list A)) r c, rect M r c -> 1 <= r -> mi_nfeat t <> Z.of_nat c -> indicator_transform t (ll M) = Err ValueError.
  Proof.
    intros t M r c RM Hr HN. unfold indicator_transform. rewrite check_ll by (destruct M, RM; simpl in *; [lia|discriminate]). cbn [bind].
    rewrite (shape1_ll M r c RM Hr). cbn [bind]. destruct (Z.eqb_spec (Z.of_nat c) (mi_nfeat t)); [congruence|]. reflexivity.
  Qed.
  Lemma flag_rows_iff : forall (mk : A) fs (M D : list (list A)) r c d, rect M r c -> Forall (fun j => j < c) fs ->
    (Forall2 (flag_row mk fs) M D <-> D = map (fun row => map (fun j => of_bool (to_impute mk (nth j row d))) fs) M).
  Proof.
    intros mk fs M D r c d [_ R] F. revert D. induction R as [|row M Hr R IH]; intro D.
    - split; intro H; [inversion H; auto|subst; constructor].
    - cbn [map]. assert (F' : Forall (fun j => j < length row) fs) by (rewrite Hr; auto). split; intro H.
      + inversion H as [|? out ? D' H1 H2]; subst. rewrite (flag_row_iff mk fs row out d F') in H1. f_equal; auto. apply IH; auto.
      + subst D. constructor; [apply (flag_row_iff mk fs row _ d F'); auto|apply IH; auto].
  Qed.

  (** Counts of missing cells. *)
  Lemma count_ok : forall (mk : A) j (M : list (list A)) c, Forall (fun row => length row = c) M -> j < c ->
    forall n, missing_count mk j M n <-> n = length (filter (fun row => to_impute mk (nth j row mk)) M).
  Proof.
    intros mk j M c R Hj. induction R as [|row M Hr R IH]; intro n; simpl.
    - split; intro H; [inversion H; auto|subst; constructor].
    - assert (E : nth_error row j = Some (nth j row mk)) by (apply nth_error_nth'; lia).
      destruct (to_impute mk (nth j row mk)) eqn:Q; simpl; split; intro H.
      + inversion H as [|? v ? k Ev Mv H'|? v ? k Ev Mv H']; subst; [f_equal; apply IH; auto|]. rewrite E in Ev. injection Ev as <-. apply to_impute_ok in Q. contradiction.
      + subst n. econstructor; eauto; [apply to_impute_ok; auto|apply IH; auto].
      + inversion H as [|? v ? k Ev Mv H'|? v ? k Ev Mv H']; subst; [|apply IH; auto]. rewrite E in Ev. injection Ev as <-. apply to_impute_no in Q. contradiction.
      + eapply mc_no; eauto; [apply to_impute_no; auto|apply IH; auto].
  Qed.
  Lemma counts_nth : forall (mk : A) (M : list (list A)) r c j, rect M r c -> 1 <= r -> j < c ->
    nth_error (counts mk M) j = Some (Z.of_nat (length (filter (fun row => to_impute mk (nth j row mk)) M))).
  Proof.
    intros mk M r c j RM Hr Hj. unfold counts.
    assert (RB : rect (missb mk M) r c).
    { destruct RM as [L R]. split; [unfold missb; rewrite map_length; auto|]. unfold missb. apply Forall_map. eapply Forall_impl; [|exact R]. intros row E. rewrite map_length. auto. }
    destruct (zipstar_nth (missb mk M) r c RB Hr) as [[L R] H]. rewrite nth_error_map'.
    destruct (nth_error (zipstar (missb mk M)) j) as [col|] eqn:E; [|apply nth_error_None in E; lia]. cbn [option_map]. f_equal. unfold count_true. f_equal.
    assert (C : col = map (fun row => to_impute mk (nth j row mk)) M).
    { rewrite Forall_forall in R. pose proof (R col (nth_error_In _ _ E)) as Lc. apply list_eq_nth. intro i. destruct (Nat.lt_ge_cases i r) as [Hi|Hi].
      - specialize (H i j Hi Hj). unfold cell in H. rewrite E in H. rewrite H. unfold missb. rewrite !nth_error_map'. destruct (nth_error M i) as [row|] eqn:Er; auto. cbn [option_map]. rewrite nth_error_map'.
        destruct RM as [_ RM]. rewrite Forall_forall in RM. rewrite (nth_error_nth' row mk) by (rewrite (RM row (nth_error_In _ _ Er)); auto). auto.
      - replace (nth_error col i) with (@None bool) by (symmetry; apply nth_error_None; lia). symmetry. apply nth_error_None. rewrite map_length. destruct RM as [LM _]. lia. }
    subst col. clear. induction M as [|row M IH]; simpl; auto. destruct (to_impute mk (nth j row mk)); simpl; auto.
  Qed.
  Lemma counts_length : forall (mk : A) (M : list (list A)) r c, rect M r c -> 1 <= r -> length (counts mk M) = c.
  Proof.
    intros mk M r c RM Hr. unfold counts. rewrite map_length.
    assert (RB : rect (missb mk M) r c).
    { destruct RM as [L R]. split; [unfold missb; rewrite map_length; auto|]. unfold missb. apply Forall_map. eapply Forall_impl; [|exact R]. intros row E. rewrite map_length. auto. }
    apply (zipstar_nth (missb mk M) r c RB Hr).
  Qed.
  (** The test of error_on_new, as coded. *)
  Lemma new_counts_iff : forall (t : indicator A) (M : list (list A)) r c, rect M r c -> 1 <= r ->
    (match new_counts t M with [] => false | _ => true end = true <->
     exists j n, j < c /\ missing_count (mi_missing t) j M n /\ n <> 0 /\ ~ In (Z.of_nat n) (mi_fitted t)).
  Proof.
    intros t M r c RM Hr. assert (I : (exists z, In z (new_counts t M)) <-> exists j n, j < c /\ missing_count (mi_missing t) j M n /\ n <> 0 /\ ~ In (Z.of_nat n) (mi_fitted t)).
    { unfold new_counts. split.
      - intros [z H]. apply filter_In in H. destruct H as [H Q]. apply filter_In in H. destruct H as [H Q2]. apply In_nth_error in H. destruct H as [j Hj].
        assert (Lj : j < c) by (rewrite <- (counts_length (mi_missing t) M r c RM Hr); eapply nth_error_lt; eauto).
        rewrite (counts_nth _ M r c j RM Hr Lj) in Hj. injection Hj as <-. eexists j, _. split; auto. split; [destruct RM; eapply count_ok; eauto|].
        split; [intro E; rewrite E in Q2; discriminate|]. intro F. apply (mem_in Z.eqb Zeqb_ok) in F. rewrite F in Q. discriminate.
      - intros (j & n & Hj & C & N & F). exists (Z.of_nat n). destruct RM as [LM RM]. rewrite (count_ok _ j M c RM Hj) in C. apply filter_In. split; [apply filter_In; split|].
        + subst n. eapply nth_error_In. apply (counts_nth _ M r c j (conj LM RM) Hr Hj).
        + destruct (Z.eqb_spec (Z.of_nat n) 0); auto. lia.
        + destruct (mem Z.eqb (Z.of_nat n) (mi_fitted t)) eqn:Q; auto. apply (mem_in Z.eqb Zeqb_ok) in Q. contradiction. }
    rewrite <- I. destruct (new_counts t M) as [|z l].
    - split; [discriminate|intros [z []]].
    - split; auto. intros _. exists z. left; auto.
  Qed.
  Lemma has_missing_count : forall (mk : A) (M : list (list A)) r c j n, rect M r c -> j < c -> missing_count mk j M n -> (n <> 0 <-> has_missing mk M j).
  Proof.
    intros mk M r c j n [_ R] Hj H. unfold has_missing, cell. induction H as [|row v M n Ev Mv H IH|row v M n Ev Mv H IH].
    - split; [congruence|]. intros ([|i] & v & E & _); discriminate.
    - split; auto. intros _. exists 0, v. auto.
    - inversion R; subst. rewrite (IH ltac:(auto)). split.
      + intros (i & w & E & Mw). exists (S i), w. auto.
      + intros ([|i] & w & E & Mw); [simpl in E; congruence|]. exists i, w. auto.
  Qed.
  Lemma missing_count_ex : forall (mk : A) (M : list (list A)) r c j, rect M r c -> j < c -> exists n, missing_count mk j M n.
  Proof. intros mk M r c j [_ R] Hj. eexists. eapply count_ok; eauto. Qed.

  (** The imputer. *)
  Definition keep (s : imputer A) (j : nat) : bool := negb (mem Nat.eqb j (removed s)).
  Lemma removed_in : forall (s : imputer A) j st, nth_error (si_stats s) j = Some st ->
    (In j (removed s) <-> str_eqb (si_strategy s) (lit "constant") = false /\ isnan st = true).
  Proof.
    intros s j st E. unfold removed. destruct (str_eqb (si_strategy s) (lit "constant")); [split; [intros []|intros [? ?]; discriminate]|].
    rewrite (combine_range st), filter_map, map_map. cbn [fst snd]. rewrite map_id, filter_In, in_seq. rewrite (nth_error_nth _ _ _ E). apply nth_error_lt in E. intuition lia.
  Qed.
  Lemma keep_cols : forall (s : imputer A) ks, kept (str_eqb (si_strategy s) (lit "constant")) (si_stats s) ks ->
    filter (keep s) (seq 0 (length (si_stats s))) = ks.
  Proof.
    intros s ks [HC HK]. apply columns_filter; auto. intros j Hj. unfold keep. destruct (nth_error (si_stats s) j) as [st|] eqn:E; [|apply nth_error_None in E; lia].
    rewrite (HK j st E). pose proof (removed_in s j st E) as Q. destruct (mem Nat.eqb j (removed s)) eqn:Em.
    - apply (mem_in Nat.eqb Nat.eqb_eq) in Em. apply Q in Em. destruct Em as [-> ->]. split; [discriminate|intros [?|?]; discriminate].
    - split; auto. intros _. destruct (str_eqb _ _) eqn:S1; auto. destruct (isnan st) eqn:S2; auto. exfalso. apply (mem_false Nat.eqb Nat.eqb_eq) in Em. apply Em, Q. auto.
  Qed.

  Definition imp_rows (s : imputer A) (ks : list nat) (d : A) (M : list (list A)) : list (list A) :=
    map (fun row => map (fun j => if to_impute (si_missing s) (nth j row d) then nth j (si_stats s) d else nth j row d) ks) M.
  Lemma fill_rows : forall (mk : A) (stats : list A) (rows : list (list A)) d, Forall (fun row => length row = length stats) rows ->
    mapM (fun a => n <- item_len a ;; mapM (fun i => v <- item_get a (Z.of_nat i) ;; if to_impute mk v then lnth stats i else Ok v) (range n)) (map Ls rows) =
    Ok (map (fun row => map (fun j => if to_impute mk (nth j row d) then nth j stats d else nth j row d) (seq 0 (length stats))) rows).
  Proof.
    intros mk stats rows d R. rewrite mapM_map. induction R as [|row rows Hr R IH]; auto. cbn [mapM]. rewrite IH. cbn [item_len bind].
    unfold range. rewrite Hr. rewrite (mapM_seq_tab _ (fun j => if to_impute mk (nth j row d) then nth j stats d else nth j row d)).
    - reflexivity.
    - intros j Hj. cbn [item_get]. rewrite lget_nat. unfold lnth at 1. rewrite (nth_error_nth' row d) by lia. cbn [bind]. destruct (to_impute mk (nth j row d)); auto.
      unfold lnth. rewrite (nth_error_nth' stats d) by lia. auto.
  Qed.

  Lemma imputer_ok : forall (s : imputer A) (M : list (list A)) r c ks d ind, rect M r c -> 1 <= r -> 1 <= c -> length (si_stats s) = c ->
    kept (str_eqb (si_strategy s) (lit "constant")) (si_stats s) ks ->
    (if si_add s then exists t, si_indicator s = Some t /\ indicator_transform t (ll M) = Ok ind /\ length ind = r else ind = []) ->
    imputer_transform s (ll M) = Ok (if si_add s then zip_with (@app A) (imp_rows s ks d M) ind else imp_rows s ks d M).
  Proof.
    intros s M r c ks d ind RM Hr Hc HS HK HI. unfold imputer_transform. rewrite check_ll by (destruct M, RM; simpl in *; [lia|discriminate]). cbn [bind].
    set (I := if si_add s then _ else _). assert (EI : I = Ok (if si_add s then Some ind else None)).
    { unfold I. destruct (si_add s); auto. destruct HI as (t & -> & -> & _). reflexivity. }
    rewrite EI. clear I EI. cbn [bind]. rewrite (shape1_ll M r c RM Hr). cbn [bind].
    destruct (si_stats s) as [|s0 ss] eqn:ES; [simpl in HS; lia|]. rewrite <- ES in *. rewrite HS, Z.eqb_refl. cbn [guard bind].
    change (items (ll M)) with (@Ok (list (item A)) (map Ls M)). cbn [bind].
    assert (KC : filter (keep s) (seq 0 c) = ks) by (rewrite <- HS; apply keep_cols; auto).
    assert (RR : forall row, In row M -> length row = c) by (destruct RM as [_ R]; rewrite Forall_forall in R; auto).
    set (RW := match removed s with [] => _ | _ => _ end).
    assert (ERW : RW = Ok (map Ls (map (fun row => map (fun j => nth j row d) ks) M))).
    { unfold RW. destruct (removed s) as [|r0 rs] eqn:ER.
      - f_equal. f_equal. rewrite <- (map_id M) at 1. apply map_ext_in. intros row Hrow. rewrite <- KC. replace (filter (keep s) (seq 0 c)) with (seq 0 c).
        + apply list_eq_nth. intro j. rewrite nth_error_map', nth_error_seq. destruct (Nat.ltb_spec j c); [apply nth_error_nth'; rewrite RR; auto|apply nth_error_None; rewrite RR; auto].
        + symmetry. apply forallb_filter_id. apply forallb_forall. intros j _. unfold keep. rewrite ER. auto.
      - rewrite <- ER. rewrite mapM_map, map_map. rewrite <- mapM_Ok. apply mapM_ext. intros row Hrow. cbn [item_len bind]. rewrite (RR row Hrow).
        change (filter (fun i => negb (mem Nat.eqb i (removed s))) (range c)) with (filter (keep s) (seq 0 c)). rewrite KC.
        rewrite (mapM_ext _ (fun i => Ok (nth i row d))); [rewrite mapM_Ok; reflexivity|].
        intros j Hj. cbn [item_get]. rewrite lget_nat. unfold lnth. rewrite (nth_error_nth' row d); auto. rewrite (RR row Hrow). destruct HK as [[_ F] _]. rewrite Forall_forall in F. rewrite <- HS. apply F; auto. }
    set (ST := match removed s with [] => _ | _ => _ end).
    assert (EST : ST = map (fun j => nth j (si_stats s) d) ks).
    { unfold ST. destruct (removed s) as [|r0 rs] eqn:ER.
      - rewrite <- KC. replace (filter (keep s) (seq 0 c)) with (seq 0 c).
        + apply list_eq_nth. intro j. rewrite nth_error_map', nth_error_seq. destruct (Nat.ltb_spec j c); [apply nth_error_nth'; lia|apply nth_error_None; lia].
        + symmetry. apply forallb_filter_id. apply forallb_forall. intros j _. unfold keep. rewrite ER. auto.
      - rewrite <- ER. rewrite <- HS at 1. rewrite (combine_range d), filter_map, map_map. cbn [fst snd]. rewrite HS, <- KC. reflexivity. }
    rewrite ERW, EST. clear ST RW EST ERW. cbn [bind].
    rewrite (fill_rows _ _ _ d) by (apply Forall_map, Forall_forall; intros; rewrite !map_length; auto). cbn [bind]. rewrite map_map, map_length.
    set (R0 := map _ M). assert (E0 : R0 = imp_rows s ks d M).
    { unfold R0, imp_rows. apply map_ext_in. intros row Hrow. apply list_eq_nth. intro j. rewrite !nth_error_map', nth_error_seq. destruct (Nat.ltb_spec j (length ks)) as [L|L].
      - rewrite (nth_error_nth' ks 0) by auto. cbn [option_map]. f_equal.
        rewrite (nth_indep _ d (nth 0 row d)) by (rewrite map_length; auto). rewrite (nth_indep (map (fun j0 => nth j0 (si_stats s) d) ks) d (nth 0 (si_stats s) d)) by (rewrite map_length; auto).
        rewrite (map_nth (fun j0 => nth j0 row d)), (map_nth (fun j0 => nth j0 (si_stats s) d)). auto.
      - replace (nth_error ks j) with (@None nat) by (symmetry; apply nth_error_None; auto). auto. }
    rewrite E0. destruct (si_add s); auto. destruct HI as (t & _ & _ & LI).
    assert (L0 : length (imp_rows s ks d M) = r) by (unfold imp_rows; rewrite map_length; apply RM).
    rewrite (mapM_seq_tab _ (fun i => nth i (imp_rows s ks d M) [] ++ nth i ind [])).
    - f_equal. apply list_eq_nth. intro i. rewrite nth_error_map', nth_error_seq, zip_with_nth. destruct (Nat.ltb_spec i (length (imp_rows s ks d M))).
      + rewrite (nth_error_nth' (imp_rows s ks d M) []), (nth_error_nth' ind []) by lia. auto.
      + replace (nth_error (imp_rows s ks d M) i) with (@None (list A)); auto. symmetry. apply nth_error_None. auto.
    - intros i Hi. unfold lnth. rewrite (nth_error_nth' (imp_rows s ks d M) []), (nth_error_nth' ind []) by lia. reflexivity.
  Qed.
  Lemma filled_rows_iff : forall (s : imputer A) ks (M D : list (list A)) r c d, rect M r c -> Forall (fun j => j < c) ks -> length (si_stats s) = c ->
    (Forall2 (filled_row (si_missing s) (si_stats s) ks) M D <-> D = imp_rows s ks d M).
  Proof.
    intros s ks M D r c d [_ R] F L. unfold imp_rows. revert D. induction R as [|row M Hr R IH]; intro D.
    - split; intro H; [inversion H; auto|subst; constructor].
    - cbn [map]. assert (F' : Forall (fun j => j < length row) ks) by (rewrite Hr; auto). split; intro H.
      + inversion H as [|? out ? D' H1 H2]; subst. rewrite (filled_row_iff _ _ ks row out d F') in H1 by lia. f_equal; auto. apply IH; auto.
      + subst D. constructor; [apply (filled_row_iff _ _ ks row _ d F'); [lia|auto]|apply IH; auto].
  Qed.
End Imp.
