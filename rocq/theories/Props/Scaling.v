(** C28-C31: scalers and normalisers. *)
From Coq Require Import String Reals Lia Lra.
From Flocq Require Import Core BinarySingleNaN.
From Verif Require Import Model.Py Model.Arith Model.F64 Model.XR Model.Utils Model.Base Model.Preprocessing.
From Verif Require Import Spec.Matrix Spec.Ensembles Spec.Reals Spec.Scaling.
From Verif Require Import Proofs.Lib Proofs.Laws Proofs.Round Proofs.Unit Proofs.Arrays Proofs.RealLib Proofs.Argmax Proofs.Ensemble Proofs.Boosting Proofs.Linear Proofs.Scaling.
Local Open Scope nat_scope.

(** C28.  Bit for bit: on a matrix of the fitted width, transform returns
    exactly the matrix whose cells are (x - mean_j) / scale_j, each half
    according to with_mean and with_std. *)
Theorem C28_dense : forall (m : libm) (s : std_scaler (F64 m)) mean scale (M : list (list (F64 m))) r c,
  rect M r c -> 1 <= r ->
  (ss_mean_on s = true -> ss_mean s = Some mean /\ length mean = c) ->
  (ss_std_on s = true -> ss_scale s = Some scale /\ length scale = c) ->
  forall out, std_transform s (ll M) = Ok out <->
    exists D, out = ll D /\ mapped (standard (ss_mean_on s) (ss_std_on s) mean scale) r c M D.
Proof. intros. apply std_dense; auto. Qed.
Print Assumptions C28_dense.

(** It does return whenever no scale is zero (StandardScaler.fit replaces zero
    scales by one). *)
Theorem C28_total : forall (m : libm) (s : std_scaler (F64 m)) mean scale (M : list (list (F64 m))) r c,
  rect M r c -> 1 <= r ->
  (ss_mean_on s = true -> ss_mean s = Some mean /\ length mean = c) ->
  (ss_std_on s = true -> ss_scale s = Some scale /\ length scale = c /\ Forall (fun x => ~ is0 x) scale) ->
  exists D, std_transform s (ll M) = Ok (ll D) /\ mapped (standard (ss_mean_on s) (ss_std_on s) mean scale) r c M D.
Proof.
  intros m s mean scale M r c RM Hr HM HS.
  assert (HS' : ss_std_on s = true -> ss_scale s = Some scale /\ length scale = c) by (intro H; destruct (HS H) as (? & ? & _); auto).
  destruct (mapped_exists (standard (ss_mean_on s) (ss_std_on s) mean scale) M r c RM) as [D HD].
  - intros i j x Hx. destruct (cell_lt M r c i j x RM Hx) as [_ Hj].
    assert (Y : exists y : F64 m, if ss_mean_on s then exists m0, nth_error mean j = Some m0 /\ y = sub x m0 else y = x).
    { destruct (ss_mean_on s); [|eauto]. destruct (HM eq_refl) as [_ L]. destruct (lnth_lt mean j) as (m0 & _ & E); [lia|]. exists (sub x m0), m0. auto. }
    destruct Y as [y Hy]. unfold standard. destruct (ss_std_on s).
    + destruct (HS eq_refl) as (_ & L & Z). destruct (lnth_lt scale j) as (sc & _ & E); [lia|]. rewrite Forall_forall in Z.
      pose proof (Z sc ltac:(eapply nth_error_In; eauto)) as Zs. destruct (u_div_ok _ (F64_unit m) y sc) as [v Ev].
      * unfold is0 in Zs. destruct (eqb sc zero) eqn:Q; auto. exfalso. apply Zs; reflexivity.
      * exists v, y. split; eauto.
    + exists y, y. auto.
  - exists D. split; auto. apply (std_dense s mean scale M r c); eauto.
Qed.
Print Assumptions C28_total.

(** Sparse input without centring: same size and dtype, same stored columns, and
    the stored matrix is the dense result. *)
Theorem C28_sparse : forall (m : libm) (s : std_scaler (F64 m)) scale rows sz dt (M : list (list (F64 m))) r c,
  rect M r c -> 1 <= r -> Forall2 stores rows M ->
  ss_mean_on s = false -> ss_std_on s = true -> ss_scale s = Some scale -> length scale = c ->
  Forall (fun x => ~ is0 x /\ isnan x = false) scale ->
  exists D rows', std_transform s (ll M) = Ok (ll D) /\ std_transform s (Sp rows sz dt) = Ok (Sp rows' sz dt) /\
    Forall2 stores rows' D /\ map (map fst) rows' = map (map fst) rows.
Proof.
  intros m s scale rows sz dt M r c RM Hr ST H1 H2 H3 H4 HS.
  destruct (C28_total m s [] scale M r c RM Hr) as (D & ED & HD).
  - rewrite H1. discriminate.
  - intros _. split; auto. split; auto. eapply Forall_impl; [|exact HS]. simpl. tauto.
  - rewrite H1, H2 in HD.
    assert (MD : mapped (divided scale) r c M D).
    { eapply mapped_iff; [|exact HD]. intros j x v. unfold standard, divided. split; [intro Q; exists x; split; [reflexivity|exact Q]|intros (y & Ey & Q); rewrite Ey in Q; exact Q]. }
    destruct (divided_sparse (f_DZ m) scale rows M D r c RM H4) as (rows' & E' & S' & K'); auto.
    { eapply Forall_impl; [|exact HS]. simpl. tauto. }
    exists D, rows'. split; auto. split; auto. unfold std_transform. rewrite check_sp. cbn [bind]. rewrite H1, H3. cbn [negb guard bind].
    change (mapM (div_cells scale) rows) with (mapM (div_cells scale) rows). rewrite E'. cbn [bind].
    destruct rows' as [|d rows']; [|reflexivity]. apply mapM_length in E'. destruct RM as [LM _]. apply Forall2_len in ST. destruct rows; [|discriminate]. cbn [length] in ST. rewrite <- ST in LM. rewrite <- LM in Hr. lia.
Qed.
Print Assumptions C28_sparse.

Theorem C28_sparse_centred : forall (m : libm) (s : std_scaler (F64 m)) rows sz dt,
  ss_mean_on s = true -> std_transform s (Sp rows sz dt) = Err ValueError.
Proof. intros m s rows sz dt H. unfold std_transform. rewrite check_sp. cbn [bind]. rewrite H. reflexivity. Qed.
Print Assumptions C28_sparse_centred.
Theorem C28_sparse_unscaled : forall (m : libm) (s : std_scaler (F64 m)) rows sz dt,
  ss_mean_on s = false -> ss_scale s = None -> std_transform s (Sp rows sz dt) = Ok (Sp rows sz dt).
Proof. intros m s rows sz dt H H'. unfold std_transform. rewrite check_sp. cbn [bind]. rewrite H, H'. reflexivity. Qed.
Print Assumptions C28_sparse_unscaled.

(** Rows that are too short are rejected ... *)
Theorem C28_short_partial : forall (m : libm) (s : std_scaler (F64 m)) mean scale (M : list (list (F64 m))) r c' c,
  rect M r c' -> 1 <= r -> c' < c -> ss_mean_on s = true \/ ss_std_on s = true ->
  (ss_mean_on s = true -> ss_mean s = Some mean /\ length mean = c) ->
  (ss_std_on s = true -> ss_scale s = Some scale /\ length scale = c /\ Forall (fun x => ~ is0 x) scale) ->
  std_transform s (ll M) = Err IndexError.
Proof.
  intros m s mean scale M r c' c RM Hr Hc Hon HM HS. unfold std_transform.
  assert (NM : M <> []) by (destruct RM; destruct M; [simpl in *; lia|discriminate]).
  rewrite (check_ll M HAllow NM). cbn [bind ll].
  destruct (ss_mean_on s).
  - destruct (HM eq_refl) as [EM LM]. rewrite EM. cbn [items bind not_none]. rewrite LM.
    change (items (ll M)) with (@Ok (list (item (F64 m))) (map Ls M)). cbn [bind]. 
    rewrite (rows_short (fun i v => m0 <- lnth mean i ;; Ok (sub v m0)) M r c' c); auto.
    intros i x Hi. destruct (lnth_lt mean i) as (m0 & -> & _); [lia|]. cbn [bind]. eauto.
  - destruct Hon as [|Hon]; [discriminate|]. rewrite Hon. destruct (HS Hon) as (ES & LS & ZS). cbn [bind items ll]. rewrite ES. cbn [not_none bind]. unfold div_row. rewrite LS.
    change (items (ll M)) with (@Ok (list (item (F64 m))) (map Ls M)). cbn [bind]. 
    rewrite (rows_short (fun i v => s0 <- lnth scale i ;; div v s0) M r c' c); auto.
    intros i x Hi. destruct (lnth_lt scale i) as (s0 & -> & E); [lia|]. cbn [bind]. apply (u_div_ok _ (F64_unit m)).
    rewrite Forall_forall in ZS. pose proof (ZS s0 ltac:(eapply nth_error_In; eauto)) as Z. unfold is0 in Z. destruct (eqb s0 zero) eqn:Q; auto. exfalso. apply Z; reflexivity.
Qed.
Print Assumptions C28_short_partial.

(** ... but not rows that are too long: their extra columns are dropped
    silently, for every arithmetic and every fitted scaler. *)
Theorem C28_long_refuted : forall m : libm, exists (s : std_scaler (F64 m)) (M : list (list (F64 m))) D,
  ss_mean_on s = true /\ (exists mean, ss_mean s = Some mean /\ length mean = 2) /\ rect M 1 3 /\
  std_transform s (ll M) = Ok (ll D) /\ rect D 1 2.
Proof.
  intro m. exists {| ss_mean_on := true; ss_std_on := false; ss_scale := None; ss_mean := Some [ofZ 1; ofZ 2] |}, [[ofZ 5; ofZ 6; ofZ 7]].
  eexists. split; auto. split; [eexists; split; [reflexivity|reflexivity]|]. split; [split; [reflexivity|repeat constructor]|].
  split; [reflexivity|]. split; [reflexivity|repeat constructor].
Qed.
Print Assumptions C28_long_refuted.

Example C28_nonvacuous : forall m : libm, exists (s : std_scaler (F64 m)) mean scale (M : list (list (F64 m))),
  rect M 2 2 /\ ss_mean_on s = true /\ ss_std_on s = true /\ ss_mean s = Some mean /\ ss_scale s = Some scale /\ length mean = 2 /\ length scale = 2 /\
  Forall (fun x => ~ is0 x /\ isnan x = false) scale /\ exists D, std_transform s (ll M) = Ok (ll D).
Proof.
  intro m. exists {| ss_mean_on := true; ss_std_on := true; ss_scale := Some [ofZ 2; ofZ 4]; ss_mean := Some [ofZ 1; ofZ 2] |}, [ofZ 1; ofZ 2], [ofZ 2; ofZ 4], [[ofZ 5; ofZ 6]; [ofZ 1; ofZ (-2)]].
  split; [split; [reflexivity|repeat constructor]|]. repeat (split; [reflexivity|]). split.
  - repeat constructor; try reflexivity; unfold is0; intro H; vm_compute in H; discriminate.
  - eexists. reflexivity.
Qed.

(** C29.  MinMaxScaler: x * scale_j + min_j. *)
Theorem C29_minmax : forall (m : libm) scale mn (M : list (list (F64 m))) r c,
  rect M r c -> 1 <= r -> length scale = c -> length mn = c ->
  exists D, minmax_transform {| mm_scale := Some scale; mm_min := Some mn |} (ll M) = Ok (ll D) /\
            mapped (affine_col scale mn) r c M D /\
            (forall D', mapped (affine_col scale mn) r c M D' -> D' = D).
Proof.
  intros m scale mn M r c RM Hr L1 L2. destruct (mapped_exists (affine_col scale mn) M r c RM) as [D HD].
  - intros i j x Hx. destruct (cell_lt M r c i j x RM Hx) as [_ Hj].
    destruct (lnth_lt scale j) as (s & _ & Es); [lia|]. destruct (lnth_lt mn j) as (b & _ & Eb); [lia|]. exists (add (mul x s) b), s, b. auto.
  - assert (E : minmax_transform {| mm_scale := Some scale; mm_min := Some mn |} (ll M) = Ok (ll D)) by (apply (minmax_dense scale mn M r c); eauto).
    exists D. split; auto. split; auto. intros D' HD'.
    assert (E' : minmax_transform {| mm_scale := Some scale; mm_min := Some mn |} (ll M) = Ok (ll D')) by (apply (minmax_dense scale mn M r c); eauto).
    rewrite E in E'. injection E' as E'. symmetry. apply ll_inj. unfold ll. f_equal. exact E'.
Qed.
Print Assumptions C29_minmax.
Theorem C29_minmax_sparse : forall (m : libm) (s : minmax (F64 m)) rows sz dt, minmax_transform s (Sp rows sz dt) = Err TypeError.
Proof. reflexivity. Qed.
Print Assumptions C29_minmax_sparse.

(** MaxAbsScaler: x / scale_j, dense and sparse alike. *)
Theorem C29_maxabs : forall (m : libm) scale (M : list (list (F64 m))) r c, rect M r c -> 1 <= r -> length scale = c ->
  forall out, maxabs_transform (Some scale) (ll M) = Ok out <-> exists D, out = ll D /\ mapped (divided scale) r c M D.
Proof. intros. apply maxabs_dense; auto. Qed.
Print Assumptions C29_maxabs.
Theorem C29_maxabs_sparse : forall (m : libm) scale rows sz dt (M D : list (list (F64 m))) r c,
  rect M r c -> 1 <= r -> length scale = c -> Forall2 stores rows M -> Forall (fun x => isnan x = false) scale ->
  maxabs_transform (Some scale) (ll M) = Ok (ll D) ->
  exists rows', maxabs_transform (Some scale) (Sp rows sz dt) = Ok (Sp rows' sz dt) /\
    Forall2 stores rows' D /\ map (map fst) rows' = map (map fst) rows.
Proof.
  intros m scale rows sz dt M D r c RM Hr L ST N E. apply (maxabs_dense scale M r c RM Hr L) in E. destruct E as (D' & E & HD).
  apply ll_inj in E. subst D'.
  destruct (divided_sparse (f_DZ m) scale rows M D r c RM L N ST HD) as (rows' & E' & S' & K').
  exists rows'. split; auto. unfold maxabs_transform. rewrite check_sp. cbn [bind].
  change (mapM (dmapM (fun k v => sc <- not_none (Some scale) ;; s <- lget sc k ;; div v s)) rows) with (mapM (div_cells scale) rows).
  rewrite E'. cbn [bind]. destruct rows' as [|d rows']; [|reflexivity]. apply mapM_length in E'. destruct RM as [LM _]. apply Forall2_len in ST. destruct rows; [|discriminate]. cbn [length] in ST. rewrite <- ST in LM. rewrite <- LM in Hr. lia.
Qed.
Print Assumptions C29_maxabs_sparse.

(** Range, MaxAbs, on doubles: |x| at most the (positive, finite) scale goes to
    a value of absolute value at most 1, on the same side of 0. *)
Theorem C29_maxabs_range : forall (m : libm) (scale x : F64 m), ltb zero scale = true -> finite scale -> leb (absv x) scale = true ->
  exists y, div x scale = Ok y /\ keeps_sign x y /\ leb (absv y) one = true.
Proof. intros m scale x H1 H2 H3. apply (f_div_unit m x scale H1 H2 H3). Qed.
Print Assumptions C29_maxabs_range.

(** Range, MinMax, exact arithmetic: with the scale and offset fit computes for
    the data range [dmin, dmax] and the target range [lo, hi]. *)
Theorem C29_range_exact : forall (dmin dmax lo hi : list R) (M : list (list R)) r c,
  rect M r c -> 1 <= r -> length dmin = c -> length dmax = c -> length lo = c -> length hi = c ->
  (forall j, (j < c)%nat -> nth j dmin 0 < nth j dmax 0 /\ nth j lo 0 <= nth j hi 0)%R ->
  (forall i j x, cell M i j = Some x -> nth j dmin 0 <= x <= nth j dmax 0)%R ->
  let scale := map (fun j => (nth j hi 0 - nth j lo 0) / (nth j dmax 0 - nth j dmin 0))%R (seq 0 c) in
  let mn := map (fun j => nth j lo 0 - nth j dmin 0 * nth j scale 0)%R (seq 0 c) in
  exists D, minmax_transform {| mm_scale := Some (fins scale); mm_min := Some (fins mn) |} (ll (finss M)) = Ok (ll (finss D)) /\
    rect D r c /\ forall i j v, cell D i j = Some v -> (nth j lo 0 <= v <= nth j hi 0)%R.
Proof.
  intros dmin dmax lo hi M r c RM Hr L1 L2 L3 L4 HR HC scale mn.
  set (f := fun j x => (x * nth j scale 0 + nth j mn 0)%R).
  exists (map (fun row => map (fun p => f (fst p) (snd p)) (combine (seq 0 (length row)) row)) M).
  set (D := map _ M). pose proof RM as [LM RM'].
  assert (CD : forall i j, cell D i j = option_map (f j) (cell M i j)).
  { intros i j. unfold cell, D. rewrite nth_error_map'. destruct (nth_error M i) as [row|]; auto. cbn [option_map]. rewrite nth_error_map', nth_error_combine, nth_error_seq.
    destruct (Nat.ltb_spec j (length row)); [destruct (nth_error row j); auto|]. replace (nth_error row j) with (@None R); auto. symmetry. apply nth_error_None. lia. }
  assert (RD : rect D r c).
  { split; [unfold D; rewrite map_length; auto|]. apply Forall_map. eapply Forall_impl; [|exact RM']. intros row <-. rewrite map_length, combine_length, seq_length. lia. }
  assert (SC : forall j, j < c -> nth_error scale j = Some (nth j scale 0%R)) by (intros j Hj; apply nth_error_nth'; unfold scale; rewrite map_length, seq_length; auto).
  assert (MN : forall j, j < c -> nth_error mn j = Some (nth j mn 0%R)) by (intros j Hj; apply nth_error_nth'; unfold mn; rewrite map_length, seq_length; auto).
  assert (CC : forall i j x, cell M i j = Some x -> j < c) by (intros i j x Hx; apply (cell_lt M r c i j x RM Hx)).
  split; [|split; auto].
  - apply (minmax_dense (fins scale) (fins mn) (finss M) r c); auto; try (apply rect_finss; auto); try (rewrite fins_length; unfold scale, mn; rewrite map_length, seq_length; auto).
    exists (finss D). split; auto. split; [apply rect_finss; auto|]. intros i j x Hx. unfold finss, cell in Hx. rewrite nth_error_map' in Hx. destruct (nth_error M i) as [row|] eqn:Ei; [|discriminate]. cbn [option_map] in Hx.
    rewrite nth_fins in Hx. destruct (nth_error row j) as [x'|] eqn:Ex; [|discriminate]. injection Hx as <-.
    assert (Cx : cell M i j = Some x') by (unfold cell; rewrite Ei; auto). pose proof (CC _ _ _ Cx) as Hj.
    exists (XFin (f j x')). split.
    + pose proof (CD i j) as Q. rewrite Cx in Q. unfold cell, finss in *. rewrite nth_error_map'. destruct (nth_error D i) as [d|]; [|discriminate]. cbn [option_map] in *. rewrite nth_fins, Q. auto.
    + exists (XFin (nth j scale 0%R)), (XFin (nth j mn 0%R)). rewrite !nth_fins, SC, MN by auto. auto.
  - intros i j v Hv. rewrite CD in Hv. destruct (cell M i j) as [x|] eqn:Cx; [|discriminate]. injection Hv as <-.
    pose proof (CC _ _ _ Cx) as Hj. pose proof (HC _ _ _ Cx) as Bx. destruct (HR j Hj) as [Bd Bl].
    assert (S1 : nth j scale 0%R = ((nth j hi 0 - nth j lo 0) / (nth j dmax 0 - nth j dmin 0))%R).
    { apply nth_error_nth. unfold scale. rewrite nth_error_map', nth_error_seq. destruct (Nat.ltb_spec j c); [auto|lia]. }
    assert (S2 : nth j mn 0%R = (nth j lo 0 - nth j dmin 0 * nth j scale 0)%R).
    { apply nth_error_nth. unfold mn. rewrite nth_error_map', nth_error_seq. destruct (Nat.ltb_spec j c); [auto|lia]. }
    unfold f. rewrite S2. set (k := nth j scale 0%R) in *.
    assert (K : (k * (nth j dmax 0 - nth j dmin 0) = nth j hi 0 - nth j lo 0)%R) by (rewrite S1; field; lra).
    assert (K0 : (0 <= k)%R) by (rewrite S1; apply Rmult_le_pos; [lra|left; apply Rinv_0_lt_compat; lra]).
    split; nra.
Qed.
Print Assumptions C29_range_exact.

(** On doubles the range claim is false at the upper end: data range [-30, -19],
    target range [0, 1], scale and offset computed in doubles as fit does; the
    value -19 is mapped above 1. *)
Theorem C29_range_refuted : forall m : libm, exists (scale mn : F64 m) (v : F64 m),
  div one (sub (ofZ (-19)) (ofZ (-30))) = Ok scale /\ mn = sub zero (mul (ofZ (-30)) scale) /\
  minmax_transform {| mm_scale := Some [scale]; mm_min := Some [mn] |} (ll [[ofZ (-19)]]) = Ok (ll [[v]]) /\ ltb one v = true.
Proof.
  intro m. assert (G : match div (one : F64 m) (sub (ofZ (-19)) (ofZ (-30))) with Ok s => ltb one (add (mul (ofZ (-19)) s) (sub zero (mul (ofZ (-30)) s))) | Err _ => false end = true) by (vm_compute; reflexivity).
  destruct (div (one : F64 m) _) as [s|] eqn:E; [|discriminate]. exists s, (sub zero (mul (ofZ (-30)) s)), (add (mul (ofZ (-19)) s) (sub zero (mul (ofZ (-30)) s))).
  split; auto.
Qed.
Print Assumptions C29_range_refuted.

(** What holds on doubles: transform is monotone, so a value inside the data
    range is mapped between the images of its ends. *)
Theorem C29_range_partial : forall (m : libm) (scale mn lo hi x : F64 m),
  finite scale -> finite mn -> finite lo -> finite hi -> finite x -> leb zero scale = true -> leb lo x = true -> leb x hi = true ->
  exists vlo v vhi, minmax_transform {| mm_scale := Some [scale]; mm_min := Some [mn] |} (ll [[lo]; [x]; [hi]]) = Ok (ll [[vlo]; [v]; [vhi]]) /\
    leb vlo v = true /\ leb v vhi = true.
Proof.
  intros. exists (add (mul lo scale) mn), (add (mul x scale) mn), (add (mul hi scale) mn). split; [reflexivity|]. split; apply f_affine_mono; auto.
Qed.
Print Assumptions C29_range_partial.

Theorem C29_short : forall (m : libm) scale mn (M : list (list (F64 m))) r c' c, rect M r c' -> 1 <= r -> c' < c -> length scale = c -> length mn = c ->
  minmax_transform {| mm_scale := Some scale; mm_min := Some mn |} (ll M) = Err IndexError.
Proof.
  intros m scale mn M r c' c RM Hr Hc L1 L2. unfold minmax_transform. cbn [issparse ll]. change (Arr (map Ls M)) with (ll M).
  rewrite (check_ll M HError) by (destruct RM; destruct M; [simpl in *; lia|discriminate]). cbn [bind items ll not_none mm_scale mm_min]. rewrite L1.
  change (items (ll M)) with (@Ok (list (item (F64 m))) (map Ls M)). cbn [bind]. 
  rewrite (rows_short (fun i v => c0 <- lnth scale i ;; m0 <- lnth mn i ;; Ok (add (mul v c0) m0)) M r c' c); auto.
  intros i x Hi. destruct (lnth_lt scale i) as (s0 & -> & _); [lia|]. cbn [bind]. destruct (lnth_lt mn i) as (b & -> & _); [lia|]. cbn [bind]. eauto.
Qed.
Print Assumptions C29_short.

Example C29_nonvacuous : forall m : libm, exists (scale mn : list (F64 m)) (M : list (list (F64 m))) rows D,
  rect M 1 2 /\ length scale = 2 /\ length mn = 2 /\ Forall2 stores rows M /\ Forall (fun x => isnan x = false) scale /\
  maxabs_transform (Some scale) (ll M) = Ok (ll D) /\
  ltb zero (hd zero scale) = true /\ finite (hd zero scale) /\ leb (absv (ofZ (-3) : F64 m)) (hd zero scale) = true.
Proof.
  intro m. exists [ofZ 4; ofZ 2], [ofZ 0; ofZ 1], [[ofZ (-3); ofZ 0]], [[(0%Z, ofZ (-3))]]. eexists.
  split; [split; [reflexivity|repeat constructor]|]. split; auto. split; auto. split.
  { constructor; [|constructor]. split; [repeat constructor; simpl; tauto|]. split.
    - simpl. intros k [<-|[]]. lia.
    - intros [|[|j]] v H; simpl in H; try (destruct j; discriminate); injection H as <-.
      + left. exists (ofZ (-3)). simpl. auto.
      + right. split; [simpl; intros [|[]]; lia|reflexivity]. }
  split; [repeat constructor|]. split; [reflexivity|]. repeat split; reflexivity.
Qed.

(** C30.  Exact arithmetic, axis = 1: every row is scaled by a positive factor
    to norm 1; zero rows are left alone. *)
Theorem C30_rows_exact : forall (M : list (list R)) r c, rect M r c -> 1 <= r ->
  (exists D, normalize_pure (ll (finss M)) (lit "l1") 1 = Ok (ll (finss D)) /\ Forall2 (unit_row Rl1) M D) /\
  (exists D, normalize_pure (ll (finss M)) (lit "l2") 1 = Ok (ll (finss D)) /\ Forall2 (unit_row Rl2) M D).
Proof.
  intros M r c RM Hr. assert (NM : M <> []) by (destruct RM; destruct M; [simpl in *; lia|discriminate]). split; [exists (map (unitise Rl1) M)|exists (map (unitise Rl2) M)].
  - split; [apply normalize_XR; auto; [left; auto|apply norms_l1_XR]|]. apply Forall2_map_r. apply Forall2_diag. intros row _. apply unitise_ok; [apply Rl1_pos|apply Rl1_scale].
  - split; [apply normalize_XR; auto; [right; left; auto|apply (norms_l2_XR M r c); auto]|]. apply Forall2_map_r. apply Forall2_diag. intros row _. apply unitise_ok; [apply Rl2_pos|apply Rl2_scale].
Qed.
Print Assumptions C30_rows_exact.
(** Normalizer.transform is the axis = 1 case. *)
Theorem C30_normalizer : forall (A : arith) norm (M : list (list A)), M <> [] -> normalizer_transform norm (ll M) = normalize_pure (ll M) norm 1.
Proof. intros A norm M N. unfold normalizer_transform. rewrite check_ll by auto. reflexivity. Qed.
Print Assumptions C30_normalizer.
(** axis = 0: every column. *)
Theorem C30_columns_exact : forall (M : list (list R)) r c, rect M r c -> 1 <= r -> 1 <= c ->
  (exists D, normalize_pure (ll (finss M)) (lit "l1") 0 = Ok (ll (finss D)) /\ rect D r c /\ forall j, j < c -> unit_row Rl1 (Rcolumn M j) (Rcolumn D j)) /\
  (exists D, normalize_pure (ll (finss M)) (lit "l2") 0 = Ok (ll (finss D)) /\ rect D r c /\ forall j, j < c -> unit_row Rl2 (Rcolumn M j) (Rcolumn D j)).
Proof.
  intros M r c RM Hr Hc.
  assert (ZZ : zipstar (finss M) = finss (zipstar M)) by (unfold finss; apply zipstar_map).
  pose proof (zipstar_nth M r c RM Hr) as [RZ _].
  assert (NZ : zipstar M <> []) by (destruct RZ; destruct (zipstar M); [simpl in *; lia|discriminate]).
  assert (LU : forall nrm l, length (unitise nrm l) = length l) by (intros; unfold unitise; destruct (Reqb _ _); rewrite ?map_length; auto).
  assert (K : forall norm nrm, norm_name norm -> norms_of (ll (finss (zipstar M))) norm = Ok (map (fun r => XFin (nrm r) : XR) (zipstar M)) ->
     (forall r, 0 <= nrm r)%R -> (forall r k, (0 <= k)%R -> nrm (map (fun x => x * k)%R r) = (nrm r * k)%R) ->
     exists D, normalize_pure (ll (finss M)) norm 0 = Ok (ll (finss D)) /\ rect D r c /\ forall j, j < c -> unit_row nrm (Rcolumn M j) (Rcolumn D j)).
  { intros norm nrm HN E P S. exists (zipstar (map (unitise nrm) (zipstar M))).
    destruct (columns_back M _ r c (unitise nrm) RM Hr Hc (LU nrm) eq_refl) as [RD CD]. split; [|split; auto].
    - rewrite (normalize_axis0 norm (finss M : list (list XR)) r c) by (auto; apply rect_finss; auto).
      assert (ZZ' : zipstar (finss M : list (list XR)) = finss (zipstar M)) by exact ZZ. rewrite ZZ'. rewrite (normalize_XR norm nrm (zipstar M)) by auto. cbn [bind].
      rewrite transpose_ll. cbn [bind]. assert (ZF : forall N, zipstar (finss N : list (list XR)) = finss (zipstar N)) by (intro; unfold finss; apply zipstar_map). rewrite ZF. auto.
    - intros j Hj. rewrite CD by auto. apply unitise_ok; auto. }
  split; apply K; auto using Rl1_pos, Rl2_pos, Rl1_scale, Rl2_scale.
  - left; auto.
  - apply norms_l1_XR.
  - right; left; auto.
  - apply (norms_l2_XR (zipstar M) c r); auto.
Qed.
Print Assumptions C30_columns_exact.

(** Doubles: what is computed, bit for bit. *)
Theorem C30_l1 : forall (m : libm) (M : list (list (F64 m))), M <> [] -> forall out,
  normalize_pure (ll M) (lit "l1") 1 = Ok out <-> exists D, out = ll D /\ Forall2 (fun row d => divided_by (psum (map absv row)) row d) M D.
Proof.
  intros m M N out. rewrite (normalize_rows (lit "l1") M (or_introl eq_refl) N). split.
  - intros (ns & D & E & L & -> & H). exists D. split; auto. rewrite norms_l1 in E. injection E as <-.
    assert (W : Forall2 (fun row d => exists n, n = psum (map absv row) /\ divided_by n row d) M D).
    { apply with_norms. exists (map (fun r => psum (map absv r)) M). split; [apply Forall2_map_r, Forall2_diag; auto|]. exact H. }
    eapply Forall2_imp; [|exact W]. intros row d (n & -> & Q). exact Q.
  - intros (D & -> & H).
    assert (W : Forall2 (fun row d => exists n, n = psum (map absv row) /\ divided_by n row d) M D).
    { eapply Forall2_imp; [|exact H]. intros row d Q. eexists. split; [reflexivity|exact Q]. }
    apply with_norms in W. destruct W as (ns & W1 & W2 & W3). exists ns, D. rewrite norms_l1. split; [|split; [symmetry; apply (Forall2_len _ _ _ W1)|split; auto]].
    f_equal. clear - W1. induction W1 as [|row n M ns E W IH]; [reflexivity|]. cbn [map]. rewrite E. f_equal. exact IH.
Qed.
Print Assumptions C30_l1.
Theorem C30_l2 : forall (m : libm) (M : list (list (F64 m))) r c, rect M r c -> 1 <= r -> forall out,
  normalize_pure (ll M) (lit "l2") 1 = Ok out <->
  exists D, out = ll D /\ Forall2 (fun row d => exists n, sqrtv (dotp row row) = Ok n /\ divided_by n row d) M D.
Proof.
  intros m M r c RM Hr out. assert (N : M <> []) by (destruct RM; destruct M; [simpl in *; lia|discriminate]).
  rewrite (normalize_rows (lit "l2") M (or_intror (or_introl eq_refl)) N), (norms_l2 M r c RM Hr). split.
  - intros (ns & D & E & L & -> & H). exists D. split; auto. apply mapM_Forall2 in E. apply with_norms. exists ns. split; auto.
  - intros (D & -> & H). apply with_norms in H. destruct H as (ns & W1 & W2 & W3). exists ns, D. split; [apply mapM_Forall2; auto|]. split; [symmetry; apply (Forall2_len _ _ _ W1)|]. auto.
Qed.
Print Assumptions C30_l2.

(** Sparse and dense agree bit for bit. *)
Theorem C30_sparse : forall (m : libm) norm rows sz dt (M : list (list (F64 m))) r c,
  norm = lit "l1" \/ norm = lit "l2" -> rect M r c -> 1 <= r -> Forall (Forall (fun x => isnan x = false)) M ->
  Forall2 stores_sorted rows M ->
  exists D rows', normalize_pure (ll M) norm 1 = Ok (ll D) /\ normalize_pure (Sp rows sz dt) norm 1 = Ok (Sp rows' sz dt) /\
    Forall2 stores rows' D /\ map (map fst) rows' = map (map fst) rows.
Proof.
  intros m norm rows sz dt M r c HN RM Hr NN ST.
  assert (NM : M <> []) by (destruct RM; destruct M; [simpl in *; lia|discriminate]).
  assert (NR : rows <> []) by (apply Forall2_len in ST; destruct rows; [destruct M; [congruence|discriminate]|discriminate]).
  assert (SS : Forall2 stores rows M) by (eapply Forall2_imp; [|exact ST]; intros d row [H _]; exact H).
  assert (G : exists ns, norms_of (ll M) norm = Ok ns /\ norms_of (Sp rows sz dt) norm = Ok ns /\ length ns = length M /\ Forall (fun n => leb zero n = true) ns).
  { destruct HN as [-> | ->].
    - exists (map (fun r => psum (map absv r)) M). split; [apply norms_l1|]. split; [apply (norms_sp_l1 (F64_ok m) (f_ONE m) (f_ABS0 m)); auto|]. split; [apply map_length|].
      apply Forall_map. eapply Forall_impl; [|exact NN]. intros row Hrow. apply (psum_nonneg m absv row (f_abs_ge0 m) Hrow).
    - destruct (l2_norms m M NN) as (ns & E & P). exists ns. rewrite (norms_l2 M r c RM Hr). split; auto. split.
      + rewrite (norms_sp_l2 (F64_ok m) (f_ONE m) (f_SQ0 m) rows M sz dt ST NR). exact E.
      + split; auto. apply (mapM_length _ _ _ E). }
  destruct G as (ns & E1 & E2 & L & P).
  destruct (normalize_both m norm M ns) as (D & ED & LD & HD & HS); auto.
  - destruct HN as [-> | ->]; [left|right; left]; auto.
  - eapply Forall_impl; [|exact P]. intros n Hn. apply hz_ok. exact Hn.
  - destruct (HS rows sz dt ns SS E2 eq_refl) as (rows' & Q1 & Q2 & Q3). exists D, rows'. auto.
Qed.
Print Assumptions C30_sparse.

(** On doubles the l2 claim fails when the squares leave the range of doubles:
    the row [2^-600] is left alone, and the row [2^600] becomes [0]. *)
Theorem C30_l2_refuted : forall m : libm,
  (exists y : F64 m, normalize_pure (ll [[ofZE 1 (-600) : F64 m]]) (lit "l2") 1 = Ok (ll [[y]]) /\ ltb (absv y) (ofZE 1 (-1)) = true) /\
  ltb zero (ofZE 1 (-600) : F64 m) = true /\
  normalize_pure (ll [[ofZE 1 600 : F64 m]]) (lit "l2") 1 = Ok (ll [[zero]]).
Proof.
  intro m. split; [|split; [vm_compute; reflexivity|vm_compute; reflexivity]].
  assert (G : match normalize_pure (ll [[ofZE 1 (-600) : F64 m]]) (lit "l2") 1 with Ok (Arr [Ls [y]]) => ltb (absv y) (ofZE 1 (-1)) | _ => false end = true) by (vm_compute; reflexivity).
  destruct (normalize_pure (ll [[ofZE 1 (-600) : F64 m]]) (lit "l2") 1) as [[[|[?|[|y []]|?] []]|? ? ?| |]|]; try discriminate.
  exists y. split; [reflexivity|exact G].
Qed.
Print Assumptions C30_l2_refuted.

(** What holds on doubles.  l1, when no norm overflows: every entry ends in
    [-1, 1] with its sign; zero rows are unchanged. *)
Theorem C30_l1_partial : forall (m : libm) (M : list (list (F64 m))), M <> [] ->
  Forall (fun row => finite (psum (map absv row)) /\ Forall (fun x => isnan x = false) row) M ->
  exists D, normalize_pure (ll M) (lit "l1") 1 = Ok (ll D) /\ Forall2 into_unit M D.
Proof.
  intros m M NM H.
  destruct (normalize_both m (lit "l1") M (map (fun r => psum (map absv r)) M)) as (D & ED & LD & HD & _); auto.
  - left; auto.
  - apply norms_l1.
  - apply map_length.
  - apply Forall_map. eapply Forall_impl; [|exact H]. intros row [_ Hrow]. apply hz_ok. apply (psum_nonneg m absv row (f_abs_ge0 m) Hrow).
  - exists D. split; auto. apply Forall2_nth_error. split; auto. intros i row d Hi Hd. rewrite Forall_forall in H. destruct (H row (nth_error_In _ _ Hi)) as [Fr Nr].
    destruct (psum_nonneg m absv row (f_abs_ge0 m) Nr) as [P B].
    apply (divided_unit m (psum (map absv row))); auto. apply (HD i row _ d Hi); auto. exact (eq_trans (nth_error_map' _ _ _) (f_equal (option_map _) Hi)).
Qed.
Print Assumptions C30_l1_partial.
(** l2: signs are kept and zero rows unchanged whenever the norms are finite. *)
Theorem C30_l2_partial : forall (m : libm) (M : list (list (F64 m))) r c, rect M r c -> 1 <= r ->
  Forall (fun row => finite (dotp row row) /\ Forall (fun x => isnan x = false) row) M ->
  exists D, normalize_pure (ll M) (lit "l2") 1 = Ok (ll D) /\
    Forall2 (fun row d => Forall2 keeps_sign row d /\ (Forall is0 row -> d = row)) M D.
Proof.
  intros m M r c RM Hr H. assert (NM : M <> []) by (destruct RM; destruct M; [simpl in *; lia|discriminate]).
  assert (NN : Forall (Forall (fun x : F64 m => isnan x = false)) M) by (eapply Forall_impl; [|exact H]; simpl; tauto).
  destruct (l2_norms m M NN) as (ns & E & P).
  destruct (normalize_both m (lit "l2") M ns) as (D & ED & LD & HD & _); auto.
  - right; left; auto.
  - rewrite (norms_l2 M r c RM Hr). exact E.
  - apply (mapM_length _ _ _ E).
  - eapply Forall_impl; [|exact P]. intros n Hn. apply hz_ok. exact Hn.
  - exists D. split; auto. apply Forall2_nth_error. split; auto. intros i row d Hi Hd. rewrite Forall_forall in H. destruct (H row (nth_error_In _ _ Hi)) as [Fr Nr].
    apply mapM_Forall2 in E. apply Forall2_nth_error in E. destruct E as [LE E].
    destruct (nth_error_len ns M i row (eq_sym LE) Hi) as [n Hn]. pose proof (E i row n Hi Hn) as En. pose proof (HD i row n d Hi Hn Hd) as Q.
    rewrite Forall_forall in P. pose proof (P n (nth_error_In _ _ Hn)) as Pn.
    assert (Fn : finite n).
    { clear - En Fr. unfold finite in *. f64. apply f_fin_iff in Fr. apply f_fin_iff. destruct Fr as [s Es]. exact (sqrt_fin _ _ s Es En). }
    split.
    + apply Forall2_nth_error. apply Forall2_nth_error in Q. destruct Q as [L Q]. split; auto. intros j x y Hx Hy. specialize (Q j x y Hx Hy).
      destruct (f_div_pos m x (hz m n)) as (y' & Ey & K); [apply hz_ok; auto|apply hz_fin; auto|]. assert (Q' : div x (hz m n) = Ok y) by exact Q. rewrite Q' in Ey. injection Ey as <-. exact K.
    + intro Z. assert (I : into_unit row d); [|apply I; auto]. apply (divided_unit m n); auto. intros x Hx. rewrite Forall_forall in Z. pose proof (Z x Hx) as Zx.
      apply (leb_trans (F64_ord m)) with zero; auto. apply (eqb_leb (F64_ord m)). apply (f_ABS0 m). exact Zx.
Qed.
Print Assumptions C30_l2_partial.
Theorem C30_unsupported : forall (A : arith) norm axis (X : arr A),
  norm <> lit "l1" -> norm <> lit "l2" -> norm <> lit "max" -> normalize_pure X norm axis = Err ValueError.
Proof.
  intros A norm axis X H1 H2 H3. unfold normalize_pure, normalize_full. destruct (negb _); cbn [guard bind]; auto.
  replace (mem str_eqb norm [lit "l1"; lit "l2"; lit "max"]) with false; auto. symmetry. destruct (mem str_eqb norm [lit "l1"; lit "l2"; lit "max"]) eqn:E; auto.
  apply (mem_in str_eqb str_eqb_ok) in E. cbn [In] in E. intuition congruence.
Qed.
Print Assumptions C30_unsupported.

Example C30_nonvacuous : forall m : libm, exists (M : list (list (F64 m))) rows, rect M 2 2 /\ Forall (Forall (fun x => isnan x = false)) M /\
  Forall2 stores_sorted rows M /\
  Forall (fun row => finite (psum (map absv row)) /\ Forall (fun x => isnan x = false) row) M /\
  Forall (fun row => finite (dotp row row) /\ Forall (fun x => isnan x = false) row) M.
Proof.
  intro m. exists [[ofZ 3; ofZ (-4)]; [ofZ 0; ofZ 0]], [[(0%Z, ofZ 3); (1%Z, ofZ (-4))]; []].
  split; [split; [reflexivity|repeat constructor]|]. split; [repeat constructor|]. split.
  { constructor; [|constructor; [|constructor]].
    - split; [|repeat constructor]. split; [repeat constructor; simpl; intuition discriminate|]. split; [simpl; intros k [<-|[<-|[]]]; lia|].
      intros [|[|j]] v H; simpl in H; try (destruct j; discriminate); injection H as <-; left; eexists; split; simpl; eauto.
    - split; [|constructor]. split; [constructor|]. split; [intros k []|]. intros [|[|j]] v H; simpl in H; try (destruct j; discriminate); injection H as <-; right; split; auto; reflexivity. }
  split; repeat constructor; reflexivity.
Qed.

(** C31.  The claim is false: a row whose largest entry is negative has its
    signs flipped and entries above 1; its sparse form is left alone; and a
    mixed-sign row can keep an absolute value above 1. *)
Theorem C31_refuted : forall m : libm,
  (exists a b : F64 m, normalize_pure (ll [[ofZ (-2); ofZ (-1) : F64 m]]) (lit "max") 1 = Ok (ll [[a; b]]) /\ ltb one a = true /\ ltb zero b = true) /\
  (exists a b : F64 m, normalize_pure (Sp [[(0%Z, ofZ (-2)); (1%Z, ofZ (-1) : F64 m)]] (Some 2%Z) DFloat) (lit "max") 1 = Ok (Sp [[(0%Z, a); (1%Z, b)]] (Some 2%Z) DFloat) /\ ltb a zero = true) /\
  (exists a b : F64 m, normalize_pure (ll [[ofZ (-2); ofZ 1 : F64 m]]) (lit "max") 1 = Ok (ll [[a; b]]) /\ ltb a (ofZ (-1)) = true).
Proof.
  intro m. split; [|split].
  - eexists. eexists. split; [reflexivity|]. split; vm_compute; reflexivity.
  - eexists. eexists. split; [reflexivity|]. vm_compute; reflexivity.
  - eexists. eexists. split; [reflexivity|]. vm_compute; reflexivity.
Qed.
Print Assumptions C31_refuted.

(** What holds, on doubles: when the largest absolute value of every row is
    finite and attained by a non-negative entry, rows end in [-1, 1] with their
    signs, that entry becomes exactly 1, zero rows are unchanged, and sparse and
    dense agree. *)
Theorem C31_partial : forall (m : libm) (M : list (list (F64 m))), M <> [] -> Forall dominated M ->
  exists D, normalize_pure (ll M) (lit "max") 1 = Ok (ll D) /\
    Forall2 (fun row d => into_unit row d /\ (~ Forall is0 row -> exists y, In y d /\ eqb y one = true)) M D /\
    forall rows sz dt, Forall2 stores rows M -> exists rows',
      normalize_pure (Sp rows sz dt) (lit "max") 1 = Ok (Sp rows' sz dt) /\ Forall2 stores rows' D /\ map (map fst) rows' = map (map fst) rows.
Proof.
  intros m M NM H.
  assert (G : exists ns, mapM (pymax gtb) M = Ok ns).
  { apply mapM_total. intros row Hr. rewrite Forall_forall in H. destruct (max_norm m row (H row Hr)) as (v & Ev & _). eauto. }
  destruct G as [ns E]. pose proof (mapM_length _ _ _ E) as L. pose proof E as F. apply mapM_Forall2 in F.
  assert (P : Forall2 (fun row v => leb zero v = true /\ finite v /\ (forall x, In x row -> leb (absv x) v = true) /\ In v row /\
    (forall d, stores d row -> exists v', pymax gtb (dvalues d ++ [zero]) = Ok v' /\ hz m v' = hz m v)) M ns).
  { apply Forall2_nth_error. apply Forall2_nth_error in F. destruct F as [LF F]. split; auto. intros i row v Hi Hv. specialize (F i row v Hi Hv).
    rewrite Forall_forall in H. destruct (max_norm m row (H row (nth_error_In _ _ Hi))) as (v' & Ev & Q). assert (Ev' : Ok v = Ok v') by (rewrite <- Ev, <- F; reflexivity). injection Ev' as <-. exact Q. }
  destruct (normalize_both m (lit "max") M ns) as (D & ED & LD & HD & HS); auto.
  - right; right; auto.
  - rewrite norms_max. exact E.
  - apply Forall2_nth_error in P. destruct P as [LP P]. apply Forall_forall. intros n Hn. apply In_nth_error in Hn. destruct Hn as [i Hi].
    destruct (nth_error_len M ns i n LP Hi) as [row Hrow]. apply hz_ok. apply (P i row n Hrow Hi).
  - exists D. split; auto. apply Forall2_nth_error in P. destruct P as [LP P]. split.
    + apply Forall2_nth_error. split; auto. intros i row d Hi Hd. destruct (nth_error_len ns M i row (eq_sym LP) Hi) as [n Hn].
      destruct (P i row n Hi Hn) as (P1 & P2 & P3 & P4 & _). pose proof (HD i row n d Hi Hn Hd) as Q. split; [apply (divided_unit m n); auto|].
      intro Z. assert (Zn : eqb n zero = false).
      { destruct (eqb n zero) eqn:Zn; auto. exfalso. apply Z. apply Forall_forall. intros x Hx. apply (abs_le0 m x n (P3 x Hx)). exact Zn. }
      apply In_nth_error in P4. destruct P4 as [j Hj]. unfold divided_by in Q. rewrite Zn in Q. apply Forall2_nth_error in Q. destruct Q as [LQ Q]. destruct (nth_error_len d row j n (eq_sym LQ) Hj) as [y Hy].
      pose proof (Q j n y Hj Hy) as Ey. pose proof (hz_ok m n P1) as Pz. unfold hz in Pz. rewrite Zn in Pz. destruct (f_div_self m n Pz P2) as (y' & Ey' & K). rewrite Ey in Ey'. injection Ey' as <-. exists y. split; auto. eapply nth_error_In; eauto.
    + intros rows sz dt ST. apply Forall2_nth_error in ST. destruct ST as [LS ST].
      assert (N' : exists ns', mapM (fun d : dict Z (F64 m) => pymax gtb (dvalues d ++ [zero])) rows = Ok ns' /\ map (hz m) ns' = map (hz m) ns).
      { clear - LS ST LP P. revert M ns LS ST LP P. induction rows as [|d rows IH]; intros [|row M] [|n ns] LS ST LP P; try discriminate.
        - exists []. auto.
        - destruct (IH M ns) as (ns' & E' & H'); [injection LS; auto| |injection LP; auto| |].
          + intros i. apply (ST (S i)).
          + intros i. apply (P (S i)).
          + destruct (P 0 row n eq_refl eq_refl) as (_ & _ & _ & _ & Q). destruct (Q d (ST 0 d row eq_refl eq_refl)) as (v' & Ev & Hv).
            exists (v' :: ns'). cbn [mapM]. rewrite Ev. cbn [bind]. rewrite E'. cbn [bind map]. split; auto. f_equal; auto. }
      destruct N' as (ns' & E' & H'). apply (HS rows sz dt ns'); auto.
      * apply Forall2_nth_error. auto.
      * unfold norms_of. change (str_eqb (lit "max") (lit "l1")) with false. change (str_eqb (lit "max") (lit "l2")) with false. cbn [issparse items bind]. rewrite mapM_map. cbn [item_values bind]. exact E'.
Qed.
Print Assumptions C31_partial.
Example C31_nonvacuous : forall m : libm, exists M : list (list (F64 m)), M <> [] /\ Forall dominated M /\ ~ Forall (Forall is0) M.
Proof.
  intro m. exists [[ofZ (-1); ofZ 2]; [ofZ 0; ofZ 0]]. split; [discriminate|]. split.
  - constructor; [exists (ofZ 2)|constructor; [exists (ofZ 0)|constructor]]; (split; [simpl; auto|split; [reflexivity|]]); intros x Hx; simpl in Hx; destruct Hx as [<-|[<-|[]]]; reflexivity.
  - intro H. inversion H as [|? ? H1 _]; subst. inversion H1 as [|? ? H2 _]; subst. vm_compute in H2. discriminate.
Qed.
