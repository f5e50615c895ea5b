(** C35-C38: SimpleImputer and MissingIndicator. *)
From Coq Require Import String Reals Lia Sorted.
From Flocq Require Import Core BinarySingleNaN.
From Verif Require Import Model.Py Model.Arith Model.F64 Model.XR Model.Utils Model.Base Model.Impute.
From Verif Require Import Spec.Matrix Spec.Impute.
From Verif Require Import Proofs.Lib Proofs.Laws Proofs.Arrays Proofs.Ensemble Proofs.Encode Proofs.Scaling Proofs.Impute.
Local Open Scope nat_scope.

(** C35.  Without the indicator, transform returns exactly the matrix of the
    kept columns with every missing cell replaced by its column's statistic and
    every other cell unchanged. *)
Theorem C35_filled : forall (m : libm) (s : imputer (F64 m)) (M : list (list (F64 m))) r c ks,
  rect M r c -> 1 <= r -> 1 <= c -> length (si_stats s) = c -> si_add s = false ->
  kept (str_eqb (si_strategy s) (lit "constant")) (si_stats s) ks ->
  forall D, imputer_transform s (ll M) = Ok D <-> Forall2 (filled_row (si_missing s) (si_stats s) ks) M D.
Proof.
  intros m s M r c ks RM Hr Hc HS HA HK D.
  pose proof (imputer_ok s M r c ks zero [] RM Hr Hc HS HK) as Q. rewrite HA in Q. rewrite (Q eq_refl).
  rewrite (filled_rows_iff s ks M D r c zero RM); auto; [|destruct HK as [[_ F] _]; rewrite <- HS; auto].
  split; intro H; [injection H as <-; auto|subst; auto].
Qed.
Print Assumptions C35_filled.

(** The kept columns exist and are unique: a fitted imputer determines them. *)
Theorem C35_kept : forall (m : libm) (constant : bool) (stats : list (F64 m)),
  exists ks, kept constant stats ks /\ forall ks', kept constant stats ks' -> ks' = ks.
Proof.
  intros m constant stats. exists (filter (fun j => constant || negb (isnan (nth j stats zero))) (seq 0 (length stats))).
  assert (P : forall j s, nth_error stats j = Some s -> (constant || negb (isnan (nth j stats zero)) = true <-> constant = true \/ isnan s = false)).
  { intros j s E. rewrite (nth_error_nth _ _ _ E). rewrite orb_true_iff, negb_true_iff. tauto. }
  split.
  - split; [split; [apply filter_sorted, seq_sorted|]|].
    + apply Forall_forall. intros j H. apply filter_In in H. destruct H as [H _]. apply in_seq in H. lia.
    + intros j s E. rewrite filter_In, in_seq, (P j s E). apply nth_error_lt in E. intuition lia.
  - intros ks' [HC HK]. symmetry. apply columns_filter; auto. intros j Hj. destruct (nth_error stats j) as [s|] eqn:E; [|apply nth_error_None in E; lia]. rewrite (HK j s E). apply P; auto.
Qed.
Print Assumptions C35_kept.

(** No cell of the result is missing, if no statistic of a kept column is
    itself a missing value. *)
Theorem C35_nothing_missing : forall (m : libm) (s : imputer (F64 m)) (M : list (list (F64 m))) r c ks D,
  rect M r c -> 1 <= r -> 1 <= c -> length (si_stats s) = c -> si_add s = false ->
  kept (str_eqb (si_strategy s) (lit "constant")) (si_stats s) ks ->
  (forall j st, In j ks -> nth_error (si_stats s) j = Some st -> ~ missing (si_missing s) st) ->
  imputer_transform s (ll M) = Ok D -> Forall (Forall (fun x => ~ missing (si_missing s) x)) D.
Proof.
  intros m s M r c ks D RM Hr Hc HS HA HK HN H. apply (C35_filled m s M r c ks) in H; auto.
  clear - H HN. induction H as [|row out M D H _ IH]; constructor; auto. clear IH. unfold filled_row in H.
  assert (G : forall l, (forall j, In j l -> In j ks) -> forall o, Forall2 (fun j x => exists v st, nth_error row j = Some v /\ nth_error (si_stats s) j = Some st /\ filled (si_missing s) st v x) l o -> Forall (fun x => ~ missing (si_missing s) x) o).
  { induction l as [|j l IH]; intros I o F; inversion F as [|? x ? o' (v & st & Ev & Es & F1 & F2) Fo]; subst; constructor.
    - destruct (to_impute (si_missing s) v) eqn:Q.
      + apply to_impute_ok in Q. rewrite (F1 Q). apply (HN j); auto. apply I; left; auto.
      + apply to_impute_no in Q. rewrite (F2 Q). auto.
    - apply IH; auto. intros; apply I; right; auto. }
  apply (G ks); auto.
Qed.
Print Assumptions C35_nothing_missing.

(** With missing marker NaN and a non-constant strategy that condition is
    automatic: the kept statistics are not NaN. *)
Theorem C35_nan_gone : forall (m : libm) (s : imputer (F64 m)) (M : list (list (F64 m))) r c D,
  rect M r c -> 1 <= r -> 1 <= c -> length (si_stats s) = c -> si_add s = false ->
  isnan (si_missing s) = true -> si_strategy s <> lit "constant" ->
  imputer_transform s (ll M) = Ok D -> Forall (Forall (fun x => isnan x = false)) D.
Proof.
  intros m s M r c D RM Hr Hc HS HA HN HC H. destruct (C35_kept m (str_eqb (si_strategy s) (lit "constant")) (si_stats s)) as (ks & HK & _).
  assert (NC : str_eqb (si_strategy s) (lit "constant") = false).
  { destruct (str_eqb (si_strategy s) (lit "constant")) eqn:E; auto. apply str_eqb_ok in E. contradiction. }
  assert (G : Forall (Forall (fun x => ~ missing (si_missing s) x)) D).
  { eapply (C35_nothing_missing m s M r c ks); eauto. intros j st I E [[_ N]|[N _]]; [|congruence]. apply (proj2 HK j st E) in I. rewrite NC in I. destruct I; congruence. }
  eapply Forall_impl; [|exact G]. intros row F. eapply Forall_impl; [|exact F]. intros x N. destruct (isnan x) eqn:E; auto. exfalso. apply N. left. auto.
Qed.
Print Assumptions C35_nan_gone.

(** A matrix of another width raises ValueError. *)
Theorem C35_width : forall (m : libm) (s : imputer (F64 m)) (M : list (list (F64 m))) r c,
  rect M r c -> 1 <= r -> 1 <= length (si_stats s) -> c <> length (si_stats s) -> si_add s = false ->
  imputer_transform s (ll M) = Err ValueError.
Proof.
  intros m s M r c RM Hr Hs Hc HA. unfold imputer_transform. rewrite check_ll by (destruct M, RM; simpl in *; [lia|discriminate]). cbn [bind]. rewrite HA. cbn [bind].
  rewrite (shape1_ll M r c RM Hr). cbn [bind]. destruct (si_stats s) as [|s0 ss]; [simpl in Hs; lia|].
  destruct (Z.eqb_spec (Z.of_nat c) (Z.of_nat (length (s0 :: ss)))); [lia|]. reflexivity.
Qed.
Print Assumptions C35_width.

Definition ex_imp (m : libm) (strategy : string) (add_ind : bool) (t : option (indicator (F64 m))) : imputer (F64 m) :=
  imputer_convert [ofZ 7; nanv; ofZ 9] (lit strategy) nanv add_ind t.
Definition shown {m : libm} (r : res (list (list (F64 m)))) : res (list (list (res Z))) :=
  match r with Ok D => Ok (map (map (fun x => toZ x)) D) | Err e => Err e end.
Example C35_ex : forall m : libm,
  shown (imputer_transform (ex_imp m "mean" false None) (ll [[nanv; ofZ 1; ofZ 2]; [ofZ 3; nanv; nanv]])) = Ok [[Ok 7; Ok 2]; [Ok 3; Ok 9]]%Z /\
  rect [[nanv; ofZ 1; ofZ 2]; [ofZ 3; nanv; (nanv : F64 m)]] 2 3 /\
  kept false (si_stats (ex_imp m "mean" false None)) [0; 2].
Proof.
  intros m. split; [vm_compute; reflexivity|]. split; [repeat constructor|]. split; [split; repeat constructor|].
  intros j s E. destruct j as [|[|[|j]]]; [| | |destruct j; discriminate]; injection E as <-; cbn [In]; vm_compute; intuition discriminate.
Qed.

(** C36.  missing-only: whatever transform returns holds, for the fitted
    features in order, 1.0 at the missing cells and 0.0 elsewhere. *)
Theorem C36_missing_only : forall (m : libm) (t : indicator (F64 m)) (M : list (list (F64 m))) r c fs D,
  rect M r c -> 1 <= r -> mi_features t = lit "missing-only" -> mi_nfeat t = Z.of_nat c ->
  columns c fs -> mi_fitted t = map Z.of_nat fs ->
  indicator_transform t (ll M) = Ok D -> Forall2 (flag_row (mi_missing t) fs) M D.
Proof.
  intros m t M r c fs D RM Hr HF HN HC HE H. rewrite (ind_only t M r c fs zero) in H by auto. destruct (guard _ _); [|discriminate]. cbn [bind] in H. injection H as <-.
  apply (flag_rows_iff (mi_missing t) fs M _ r c zero RM); auto. apply HC.
Qed.
Print Assumptions C36_missing_only.

(** It does return when error_on_new is off. *)
Theorem C36_total : forall (m : libm) (t : indicator (F64 m)) (M : list (list (F64 m))) r c fs,
  rect M r c -> 1 <= r -> mi_features t = lit "missing-only" -> mi_nfeat t = Z.of_nat c ->
  columns c fs -> mi_fitted t = map Z.of_nat fs -> mi_error t = false ->
  exists D, indicator_transform t (ll M) = Ok D /\ Forall2 (flag_row (mi_missing t) fs) M D.
Proof.
  intros m t M r c fs RM Hr HF HN HC HE ER. eexists. rewrite (ind_only t M r c fs zero) by auto. rewrite ER. split; [reflexivity|].
  apply (flag_rows_iff (mi_missing t) fs M _ r c zero RM); auto. apply HC.
Qed.
Print Assumptions C36_total.

(** features='all' keeps every column and never raises on missing values. *)
Theorem C36_all : forall (m : libm) (t : indicator (F64 m)) (M : list (list (F64 m))) r c,
  rect M r c -> 1 <= r -> mi_features t = lit "all" -> mi_nfeat t = Z.of_nat c ->
  exists D, indicator_transform t (ll M) = Ok D /\ rect D r c /\
    forall i j v x, cell M i j = Some v -> cell D i j = Some x -> flag (mi_missing t) v x.
Proof.
  intros m t M r c RM Hr HF HN. eexists. rewrite (ind_all t M r c zero) by auto. split; [reflexivity|].
  assert (RR : forall row, In row M -> length row = c) by (destruct RM as [_ R]; rewrite Forall_forall in R; auto). split.
  - split; [rewrite map_length; apply RM|]. apply Forall_map, Forall_forall. intros. rewrite map_length, seq_length. auto.
  - intros i j v x Hv Hx. destruct (cell_lt M r c i j v RM Hv) as [_ Hj]. unfold cell in *. rewrite nth_error_map' in Hx. destruct (nth_error M i) as [row|]; [|discriminate]. cbn [option_map] in Hx.
    rewrite seq_nth_map in Hx by auto. injection Hx as <-. apply flag_iff. rewrite (nth_error_nth _ _ _ Hv). auto.
Qed.
Print Assumptions C36_all.

(** Another width raises ValueError. *)
Theorem C36_width : forall (m : libm) (t : indicator (F64 m)) (M : list (list (F64 m))) r c,
  rect M r c -> 1 <= r -> mi_nfeat t <> Z.of_nat c -> indicator_transform t (ll M) = Err ValueError.
Proof. intros. eapply ind_width; eauto. Qed.
Print Assumptions C36_width.

Definition ex_ind (m : libm) (features : string) (err : bool) (fs : list Z) (n : Z) : indicator (F64 m) :=
  {| mi_features := lit features; mi_fitted := fs; mi_nfeat := n; mi_missing := nanv; mi_error := err |}.
Example C36_ex : forall m : libm,
  shown (indicator_transform (ex_ind m "missing-only" false [0; 2]%Z 3) (ll [[nanv; ofZ 1; ofZ 2]; [ofZ 3; nanv; nanv]])) = Ok [[Ok 1; Ok 0]; [Ok 0; Ok 1]]%Z /\
  shown (indicator_transform (ex_ind m "all" true [0; 2]%Z 3) (ll [[nanv; ofZ 1; ofZ 2]; [ofZ 3; nanv; nanv]])) = Ok [[Ok 1; Ok 0; Ok 0]; [Ok 0; Ok 1; Ok 1]]%Z /\
  columns 3 [0; 2].
Proof. intros m. split; [vm_compute; reflexivity|]. split; [vm_compute; reflexivity|]. split; repeat constructor. Qed.

(** C37 is false as stated, in both directions.  The code compares the numbers
    of missing cells per column, not the columns, with the fitted features. *)
Theorem C37_refuted_false_alarm : forall m : libm, exists (t : indicator (F64 m)) M,
  mi_features t = lit "missing-only" /\ mi_error t = true /\ mi_nfeat t = 2%Z /\ rect M 2 2 /\
  (forall j, has_missing (mi_missing t) M j -> In (Z.of_nat j) (mi_fitted t)) /\
  indicator_transform t (ll M) = Err ValueError.
Proof.
  intros m. exists (ex_ind m "missing-only" true [0]%Z 2), [[nanv; ofZ 1]; [nanv; ofZ 1]]. split; auto. split; auto. split; auto. split; [repeat constructor|]. split; [|vm_compute; reflexivity].
  intros j (i & v & E & Mv). destruct j as [|j]; [left; auto|]. destruct Mv as [[_ N]|[N _]]; [|discriminate].
  destruct i as [|[|i]]; [| |destruct i; discriminate]; (destruct j as [|j]; [injection E as <-; vm_compute in N; discriminate|destruct j; discriminate]).
Qed.
Print Assumptions C37_refuted_false_alarm.
Theorem C37_refuted_missed : forall m : libm, exists (t : indicator (F64 m)) M,
  mi_features t = lit "missing-only" /\ mi_error t = true /\ mi_nfeat t = 2%Z /\ rect M 1 2 /\
  (exists j, has_missing (mi_missing t) M j /\ ~ In (Z.of_nat j) (mi_fitted t)) /\
  exists D, indicator_transform t (ll M) = Ok D.
Proof.
  intros m. exists (ex_ind m "missing-only" true [1]%Z 2), [[nanv; ofZ 1]]. split; auto. split; auto. split; auto. split; [repeat constructor|]. split.
  - exists 0. split; [exists 0, nanv; split; [reflexivity|left; split; reflexivity]|]. intros [E|[]]; discriminate.
  - rewrite (ind_only _ _ 1 2 [1] zero); [|repeat constructor|lia|reflexivity|reflexivity|split; repeat constructor|reflexivity]. eexists.
    assert (E : (guard (negb (mi_error (ex_ind m "missing-only" true [1]%Z 2) && match new_counts (ex_ind m "missing-only" true [1]%Z 2) [[nanv; ofZ 1]] with [] => false | _ => true end)) ValueError) = Ok tt) by (vm_compute; reflexivity).
    rewrite E. reflexivity.
Qed.
Print Assumptions C37_refuted_missed.

(** What the code does check: with error_on_new it raises exactly when the
    number of missing cells of some column is neither 0 nor one of the fitted
    feature numbers. *)
Theorem C37_counts : forall (m : libm) (t : indicator (F64 m)) (M : list (list (F64 m))) r c fs,
  rect M r c -> 1 <= r -> mi_features t = lit "missing-only" -> mi_nfeat t = Z.of_nat c ->
  columns c fs -> mi_fitted t = map Z.of_nat fs -> mi_error t = true ->
  (indicator_transform t (ll M) = Err ValueError <->
   exists j n, j < c /\ missing_count (mi_missing t) j M n /\ n <> 0 /\ ~ In n fs).
Proof.
  intros m t M r c fs RM Hr HF HN HC HE ER. rewrite (ind_only t M r c fs zero) by auto. rewrite ER. cbn [andb].
  assert (EQ : (exists j n, j < c /\ missing_count (mi_missing t) j M n /\ n <> 0 /\ ~ In n fs) <-> exists j n, j < c /\ missing_count (mi_missing t) j M n /\ n <> 0 /\ ~ In (Z.of_nat n) (mi_fitted t)).
  { rewrite HE. split; intros (j & n & Hj & C & N & F); exists j, n; split; auto; split; auto; split; auto; intro I; apply F.
    - apply in_map_iff in I. destruct I as (k & E & I). assert (k = n) by lia. subst; auto.
    - apply in_map; auto. }
  rewrite EQ, <- (new_counts_iff t M r c RM Hr). destruct (new_counts t M); simpl; split; intro H; auto; discriminate.
Qed.
Print Assumptions C37_counts.

(** The stated claim holds when nothing was missing at fit time, and when
    nothing is missing now; and with error_on_new off there is never an error
    (C36_total). *)
Theorem C37_partial : forall (m : libm) (t : indicator (F64 m)) (M : list (list (F64 m))) r c fs,
  rect M r c -> 1 <= r -> mi_features t = lit "missing-only" -> mi_nfeat t = Z.of_nat c ->
  columns c fs -> mi_fitted t = map Z.of_nat fs -> mi_error t = true ->
  fs = [] \/ (forall j, ~ has_missing (mi_missing t) M j) ->
  (indicator_transform t (ll M) = Err ValueError <-> exists j, has_missing (mi_missing t) M j /\ ~ In j fs).
Proof.
  intros m t M r c fs RM Hr HF HN HC HE ER HS. rewrite (C37_counts m t M r c fs) by auto. split.
  - intros (j & n & Hj & C & N & F). apply (has_missing_count _ M r c j n RM Hj C) in N. destruct HS as [->|HS]; [eauto|]. exfalso. eapply HS; eauto.
  - intros (j & H & F). destruct HS as [->|HS]; [|exfalso; eapply HS; eauto].
    assert (Hj : j < c) by (destruct H as (i & v & E & _); eapply (cell_lt M r c i j v); eauto).
    destruct (missing_count_ex (mi_missing t) M r c j RM Hj) as [n C]. exists j, n. split; auto. split; auto. split; auto. apply (has_missing_count _ M r c j n RM Hj C); auto.
Qed.
Print Assumptions C37_partial.

Example C37_ex : forall m : libm,
  indicator_transform (ex_ind m "missing-only" true [] 2) (ll [[nanv; ofZ 1]; [ofZ 3; ofZ 4]]) = Err ValueError.
Proof. intros m. vm_compute. reflexivity. Qed.

(** C38.  A converted imputer with the indicator: the result is, row by row,
    the imputed row followed by the flags of the fitted features computed on
    the input, and there is always a result, whatever error_on_new says and
    whichever columns are missing. *)
Theorem C38_concatenated : forall (m : libm) (stats : list (F64 m)) strategy mark (t : indicator (F64 m)) (M : list (list (F64 m))) r c ks fs,
  rect M r c -> 1 <= r -> 1 <= c -> length stats = c ->
  kept (str_eqb strategy (lit "constant")) stats ks ->
  mi_features t = lit "missing-only" -> mi_nfeat t = Z.of_nat c -> columns c fs -> mi_fitted t = map Z.of_nat fs ->
  exists D1 D2, imputer_transform (imputer_convert stats strategy mark true (Some t)) (ll M) = Ok (zip_with (@app _) D1 D2) /\
    Forall2 (filled_row mark stats ks) M D1 /\ Forall2 (flag_row (mi_missing t) fs) M D2.
Proof.
  intros m stats strategy mark t M r c ks fs RM Hr Hc HS HK HF HN HC HE.
  set (s := imputer_convert stats strategy mark true (Some t)).
  destruct (C36_total m {| mi_features := mi_features t; mi_fitted := mi_fitted t; mi_nfeat := mi_nfeat t; mi_missing := mi_missing t; mi_error := false |} M r c fs) as (D2 & E2 & F2); auto.
  exists (imp_rows s ks zero M), D2. split; [|split; auto].
  - apply (imputer_ok s M r c ks zero D2); auto. cbn [si_add s imputer_convert]. eexists. split; [reflexivity|]. split; [exact E2|]. apply Forall2_len in F2. destruct RM. lia.
  - apply (filled_rows_iff s ks M _ r c zero RM); auto. destruct HK as [[_ F] _]. rewrite <- HS. exact F.
Qed.
Print Assumptions C38_concatenated.

Example C38_ex : forall m : libm,
  shown (imputer_transform (ex_imp m "mean" true (Some (ex_ind m "missing-only" true [2]%Z 3))) (ll [[nanv; ofZ 1; ofZ 2]; [ofZ 3; nanv; nanv]])) = Ok [[Ok 7; Ok 2; Ok 0]; [Ok 3; Ok 9; Ok 1]]%Z.
Proof. intros m. vm_compute. reflexivity. Qed.
