(** C01-C07: sparse lists and matrix helpers (pure_sklearn/utils.py, base.py). *)
From Coq Require Import Reals.
From Flocq Require Import Core BinarySingleNaN.
From Verif Require Import Model.Py Model.Arith Model.F64 Model.XR Model.Utils Model.Base.
From Verif Require Import Spec.Matrix Spec.Libm Spec.Reals.
From Verif Require Import Proofs.Lib Proofs.Laws Proofs.Round Proofs.Unit Proofs.CRLibm Proofs.Arrays Proofs.RealLib Proofs.Arrays2.

(** C01.  tosparse then todense gives a matrix of the same shape with the same
    cells (a zero of either sign comes back as 0.0). *)
Theorem C01_roundtrip : forall (m : libm) (M : list (list (F64 m))) r c,
  rect M r c -> 1 <= r -> 1 <= c ->
  exists S D, tosparse (ll M) = Ok S /\ todense S = Ok D /\ rect D r c /\
    forall i j v, cell M i j = Some v ->
      cell D i j = Some (if eqb v zero then zero else v).
Proof.
  intros m M r c HR H1 Hc. eexists. exists (map (map cleanz) M).
  split; [apply tosparse_ok with (r := r) (c := c); auto|].
  split; [apply todense_sprow with (r := r); auto|]. split; [split|].
  - rewrite map_length. apply HR.
  - apply Forall_forall. intros x Hx. apply in_map_iff in Hx. destruct Hx as (y & <- & Hy).
    rewrite map_length. eapply rect_row; eauto.
  - intros i j v. unfold cell. rewrite nth_error_map'. destruct (nth_error M i) as [row|]; [|discriminate].
    simpl. rewrite nth_error_map'. intros ->. reflexivity.
Qed.
Print Assumptions C01_roundtrip.

(** The sparse form stores each non-zero cell (NaN included) once, under its
    column number, in increasing order, and nothing else. *)
Theorem C01_storage : forall (m : libm) (M : list (list (F64 m))) r c,
  rect M r c -> 1 <= r -> 1 <= c ->
  exists rows, tosparse (ll M) = Ok (Sp rows (Some (Z.of_nat c)) DFloat) /\
    Forall2 (fun d row => stores_sorted d row /\
               forall k v, In (k, v) d <->
                 exists j, k = Z.of_nat j /\ nth_error row j = Some v /\ eqb v zero = false) rows M.
Proof.
  intros m M r c HR H1 Hc. eexists. split; [apply tosparse_ok with (r := r); auto|].
  clear HR. induction M as [|row M IH]; simpl; constructor; auto. split; [apply sprow_stores|].
  intros k v. rewrite (sprow_from_in row 0 k v). reflexivity.
Qed.
Print Assumptions C01_storage.

Definition num0 {m} : F64 m := zero.
Definition num1 {m} : F64 m := one.

Example C01_case : forall m, let M := [[num0; num1]; [nanv; (B754_zero true : F64 m)]] in
  rect M 2 2 /\ tosparse (ll M) = Ok (Sp [[(1%Z, num1)]; [(0%Z, nanv)]] (Some 2%Z) DFloat).
Proof. intros m M. split; [repeat constructor | reflexivity]. Qed.

(** C02.  dot gives bit for bit the same numbers for a dense row and for a dict
    storing it (keys in increasing order, as tosparse builds it); both are the
    left-to-right sum of products. *)
Theorem C02_dot_agree : forall (m : libm) (d : dict Z (F64 m)) row (B : list (list (F64 m))),
  stores_sorted d row ->
  Forall (fun b => length b = length row /\ Forall (fun x => is_finite x = true) b) B ->
  dot (Di d) B = dot (Ls row) B /\ dot (Ls row) B = Ok (map (dotp row) B).
Proof.
  intros m d row B S HB. split; [|apply dot_dense].
  apply (dot_stored (F64_ok m)); auto. eapply Forall_impl; [|exact HB]. simpl.
  intros b [L F]. split; auto. eapply Forall_impl; [|exact F]. simpl. intros x Fx.
  unfold finite, zero, ofZ. simpl. apply (proj2 (f_finite_iff x)). exact Fx.
Qed.
Print Assumptions C02_dot_agree.

(** ... in particular for the dict tosparse builds. *)
Theorem C02_dot_tosparse : forall (m : libm) (M : list (list (F64 m))) r c (B : list (list (F64 m))) rows sz dt,
  rect M r c -> 1 <= r -> 1 <= c ->
  Forall (fun b => length b = c /\ Forall (fun x => is_finite x = true) b) B ->
  tosparse (ll M) = Ok (Sp rows sz dt) ->
  dot_2d (Sp rows sz dt) B = dot_2d (ll M) B /\
  dot_2d (ll M) B = Ok (map (fun row => map (dotp row) B) M).
Proof.
  intros m M r c B rows sz dt HR H1 Hc HB E.
  rewrite (tosparse_ok M r c HR H1 Hc) in E. inversion E; subst; clear E.
  assert (D : dot_2d (ll M) B = Ok (map (fun row => map (dotp row) B) M)).
  { unfold dot_2d, ll. cbn [items bind]. rewrite mapM_map. apply mapM_pure. intros row _. apply dot_dense. }
  split; auto. rewrite D. unfold dot_2d. cbn [items bind]. rewrite !mapM_map. apply mapM_pure.
  intros row Hrow. destruct (C02_dot_agree m (sprow (A:=F64 m) row) row B) as [E1 E2].
  - apply sprow_stores.
  - rewrite (rect_row _ _ _ _ HR Hrow). auto.
  - rewrite E1. auto.
Qed.
Print Assumptions C02_dot_tosparse.

(** On real numbers the result is the dot product. *)
Theorem C02_dot_exact : forall (x : list R) (B : list (list R)),
  dot (A:=XR) (Ls (fins x)) (map fins B) = Ok (fins (map (Rdot x) B)).
Proof.
  intros x B. rewrite dot_dense. unfold fins at 3. rewrite !map_map. f_equal. apply map_ext. intro b.
  apply dotp_fins.
Qed.
Print Assumptions C02_dot_exact.

Example C02_case : forall m, stores_sorted [(1%Z, num1 (m:=m))] [num0; num1] /\
  Forall (fun b => length b = 2 /\ Forall (fun x => is_finite x = true) b) [[num1; num1 (m:=m)]].
Proof. intro m. split; [apply (sprow_stores [num0; num1])|]. repeat constructor. Qed.

(** C03 *)
Theorem C03_transpose : forall (A : arith) (M : list (list A)) r c, rect M r c -> 1 <= r ->
  exists T, transpose (ll M) = Ok T /\ rect T c r /\
    forall i j, i < r -> j < c -> cell T j i = cell M i j.
Proof.
  intros A M r c HR H1. exists (zipstar M). split; [apply transpose_ll|]. apply zipstar_nth; auto.
Qed.
Print Assumptions C03_transpose.

Theorem C03_involutive : forall (A : arith) (M : list (list A)) r c, rect M r c -> 1 <= r -> 1 <= c ->
  exists T, transpose (ll M) = Ok T /\ transpose (ll T) = Ok M.
Proof.
  intros A M r c HR H1 Hc. exists (zipstar M). rewrite !transpose_ll.
  rewrite (zipstar_invol M r c); auto.
Qed.
Print Assumptions C03_involutive.

Theorem C03_sparse_rejected : forall (A : arith) rows sz dt, transpose (A:=A) (Sp rows sz dt) = Err ValueError.
Proof. reflexivity. Qed.
Print Assumptions C03_sparse_rejected.

Example C03_case : forall m, transpose (ll [[num0; num1; nanv]; [num1; num1; (num0 (m:=m))]]) =
  Ok [[num0; num1]; [num1; num1]; [nanv; num0]].
Proof. reflexivity. Qed.

(** C04 *)
Theorem C04_dense : forall (A : arith) (M N : list (list A)) r c, rect M r c -> rect N r c -> 1 <= r ->
  exists P, matmult_same_dim (ll M) (ll N) = Ok (ll P) /\ rect P r c /\
    forall i j x y, cell M i j = Some x -> cell N i j = Some y -> cell P i j = Some (mul x y).
Proof.
  intros A M N r c HM HN H1. exists (zip_with (zip_with mul) M N).
  split; [apply matmult_dense with (r := r) (c := c); auto|]. split; [split|].
  - rewrite zip_with_length. destruct HM, HN. lia.
  - apply Forall_forall. intros x Hx. apply In_nth_error in Hx. destruct Hx as [i Hi]. rewrite zip_with_nth in Hi.
    destruct (nth_error M i) eqn:E1; [|discriminate]. destruct (nth_error N i) eqn:E2; [|discriminate].
    inversion Hi; subst. rewrite zip_with_length.
    rewrite (rect_row _ _ _ _ HM (nth_error_In _ _ E1)), (rect_row _ _ _ _ HN (nth_error_In _ _ E2)). lia.
  - intros i j x y. unfold cell. rewrite zip_with_nth.
    destruct (nth_error M i) eqn:E1; [|discriminate]. destruct (nth_error N i) eqn:E2; [|discriminate].
    rewrite zip_with_nth. intros -> ->. reflexivity.
Qed.
Print Assumptions C04_dense.

(** Sparse operands storing [M] and [N] (finite cells): the result densifies to
    the elementwise product. *)
Theorem C04_sparse : forall (m : libm) (M N : list (list (F64 m))) rM rN r c dt,
  rect M r c -> rect N r c -> 1 <= r ->
  Forall (Forall (fun x => is_finite x = true)) M -> Forall (Forall (fun x => is_finite x = true)) N ->
  Forall2 stores rM M -> Forall2 stores rN N ->
  exists S D, matmult_same_dim (Sp rM (Some (Z.of_nat c)) dt) (Sp rN (Some (Z.of_nat c)) dt) = Ok S /\
    todense S = Ok D /\ rect D r c /\
    forall i j x y, cell M i j = Some x -> cell N i j = Some y ->
      exists w, cell D i j = Some w /\ same_cell (mul x y) w.
Proof.
  intros m M N rM rN r c dt HM HN H1 FM FN SM SN.
  assert (G : forall l : list (list (F64 m)), Forall (Forall (fun x => is_finite x = true)) l -> Forall (Forall finite) l).
  { intros l H. eapply Forall_impl; [|exact H]. simpl. intros a Ha. eapply Forall_impl; [|exact Ha]. simpl. intros x Fx.
    unfold finite, zero, ofZ. simpl. apply (proj2 (f_finite_iff x)). exact Fx. }
  destruct (matmult_sparse (F64_ok m) rM rN M N r c dt) as (rows & E & S); auto.
  destruct (C04_dense _ M N r c HM HN H1) as (P & EP & RP & CP).
  rewrite (matmult_dense M N r c) in EP by auto.
  assert (P = zip_with (zip_with mul) M N).
  { symmetry. apply ll_inj. congruence. }
  subst P.
  destruct (todense_stores rows _ r c dt RP S) as (D & ED & RD & CD).
  exists (Sp rows (Some (Z.of_nat c)) dt), D. do 3 (split; auto).
Qed.
Print Assumptions C04_sparse.

(** Different shapes or mixed representations are rejected. *)
Theorem C04_rejected : forall (A : arith) X Y sX sY, shape (A:=A) X = Ok sX -> shape Y = Ok sY ->
  (sX <> sY \/ issparse X <> issparse Y) -> matmult_same_dim X Y = Err ValueError.
Proof. intros. eapply matmult_shape; eauto. Qed.
Print Assumptions C04_rejected.

Example C04_case : forall m, let M := [[num0; num1]; [nanv; (num1 (m:=m))]] in
  matmult_same_dim (ll M) (ll M) = Ok (ll [[mul num0 num0; mul num1 num1]; [mul nanv nanv; mul num1 num1]]) /\
  shape (ll M) <> shape (ll [[num1 (m:=m)]]) /\
  matmult_same_dim (ll M) (ll [[num1 (m:=m)]]) = Err ValueError /\
  matmult_same_dim (ll [[num0; num1 (m:=m)]]) (Sp [[(1%Z, num1)]] (Some 2%Z) DFloat) = Err ValueError.
Proof. intros m M. repeat split; try reflexivity. discriminate. Qed.

(** C05.  One column of a sparse matrix is the dense one (zeros as 0). *)
Theorem C05_slice_int : forall (m : libm) (M : list (list (F64 m))) rows r c j sz dt,
  rect M r c -> j < c -> Forall2 stores rows M ->
  exists col col', slice_column (ll M) (Z.of_nat j) = Ok col /\ slice_column (Sp rows sz dt) (Z.of_nat j) = Ok col' /\
    (forall i, nth_error col i = cell M i j) /\ length col' = r /\
    forall i v, cell M i j = Some v -> exists w, nth_error col' i = Some w /\ same_cell v w.
Proof.
  intros m M rows r c j sz dt HR Hj HS.
  destruct (slice_dense M r c j HR Hj) as (col & E1 & L1 & C1).
  destruct (slice_sparse rows M r c j sz dt HR Hj HS) as (col' & E2 & L2 & C2).
  exists col, col'. auto.
Qed.
Print Assumptions C05_slice_int.

(** A list of columns: dense input. *)
Theorem C05_slice_list_dense : forall (A : arith) (M : list (list A)) r c idx, rect M r c -> Forall (fun j => j < c) idx ->
  exists N, slice_columns (ll M) (map Z.of_nat idx) = Ok (ll N) /\ rect N r (length idx) /\
    forall i k j, nth_error idx k = Some j -> cell N i k = cell M i j.
Proof. exact (@slice_cols_dense). Qed.
Print Assumptions C05_slice_list_dense.

(** A list of columns: sparse input keeps the chosen columns at their old
    positions, in a matrix of the old width (the full property would place the
    k-th chosen column at position k, as in the dense case: refuted below). *)
Theorem C05_slice_list_sparse_partial : forall (m : libm) rows (M : list (list (F64 m))) r c idx dt,
  rect M r c -> 1 <= r -> Forall2 stores rows M ->
  exists rows', slice_columns (Sp rows (Some (Z.of_nat c)) dt) (map Z.of_nat idx) = Ok (Sp rows' (Some (Z.of_nat c)) dt) /\
    length rows' = r /\
    forall i d d', nth_error rows i = Some d -> nth_error rows' i = Some d' ->
      forall j, dlookup Z.eqb (Z.of_nat j) d' = if existsb (Nat.eqb j) idx then dlookup Z.eqb (Z.of_nat j) d else None.
Proof. intros m rows M r c idx dt. apply slice_cols_sparse. Qed.
Print Assumptions C05_slice_list_sparse_partial.

Theorem C05_slice_list_refuted : forall m : libm, exists (M : list (list (F64 m))) S j N S' D,
  rect M 1 2 /\ tosparse (ll M) = Ok S /\ slice_columns (ll M) [j] = Ok (ll N) /\ rect N 1 1 /\
  slice_columns S [j] = Ok S' /\ todense S' = Ok D /\ rect D 1 2.
Proof.
  intro m. exists [[num1; num1]], (Sp [[(0%Z, num1); (1%Z, num1)]] (Some 2%Z) DFloat), 1%Z, [[num1]],
    (Sp [[(1%Z, num1)]] (Some 2%Z) DFloat), [[num0; num1]].
  repeat split; repeat constructor.
Qed.
Print Assumptions C05_slice_list_refuted.

(** A negative index counts from the end for a dense row, but reads 0 from a
    sparse one. *)
Theorem C05_negative_index_refuted : forall m : libm, exists (M : list (list (F64 m))) S,
  rect M 1 1 /\ tosparse (ll M) = Ok S /\
  slice_column (ll M) (-1) = Ok [one] /\ slice_column S (-1) = Ok [zero].
Proof.
  intro m. exists [[num1]], (Sp [[(0%Z, num1)]] (Some 1%Z) DFloat). repeat split; repeat constructor.
Qed.
Print Assumptions C05_negative_index_refuted.

Example C05_case : forall m, let M := [[num0; num1]; [nanv; (num1 (m:=m))]] in
  rect M 2 2 /\ Forall2 stores [[(1%Z, num1)]; [(0%Z, nanv); (1%Z, num1)]] M.
Proof.
  intros m M. split; [repeat constructor|].
  constructor; [apply (sprow_stores [num0; num1])|]. constructor; [apply (sprow_stores [nanv; num1])|constructor].
Qed.

(** C06.  In exact arithmetic sfmax is softmax, a probability distribution. *)
Theorem C06_softmax_exact : forall l : list R, l <> [] ->
  sfmax (A:=XR) (fins l) = Ok (fins (softmax l)) /\ distribution (softmax l).
Proof. intros l H. split; [apply sfmax_XR | apply softmax_dist; auto]. Qed.
Print Assumptions C06_softmax_exact.

(** On doubles: entries in [0,1] provided no exponential overflows and their
    sum is finite and non-zero (missing: arbitrary finite input, see the
    refutations; exact sum 1, true only up to rounding). *)
Theorem C06_softmax_float_partial : forall m, exp_nonneg m -> forall (l es : list (F64 m)),
  Forall2 (fun x e => is_finite x = true /\ m_exp m x = Some e) l es ->
  is_finite (fold_left f_add es (zero : F64 m)) = true -> eqb (fold_left f_add es (zero : F64 m) : F64 m) zero = false ->
  exists p, sfmax l = Ok p /\ length p = length l /\ Forall (fun q => leb zero q = true /\ leb q one = true) p.
Proof.
  intros m HE l es H Fin NZ. apply (sfmax_float m HE l es H); auto.
  unfold finite, zero, ofZ. simpl. apply (proj2 (f_finite_iff _)). exact Fin.
Qed.
Print Assumptions C06_softmax_float_partial.

(** One score of 1000 gives NaN: not a probability. *)
Theorem C06_overflow_refuted : forall m, exp_overflows m f1000 ->
  sfmax [(f1000 : F64 m)] = Ok [nanv].
Proof.
  intros m H. apply sfmax_over; [apply f1000_val | exact H].
Qed.
Print Assumptions C06_overflow_refuted.

(** Scores that are all very negative raise ZeroDivisionError. *)
Theorem C06_underflow_refuted : forall m, exp_underflows m fm1000 ->
  sfmax [(fm1000 : F64 m); fm1000] = Err ZeroDivisionError.
Proof.
  intros m H. apply sfmax_under; [apply fm1000_val | exact H].
Qed.
Print Assumptions C06_underflow_refuted.

(** The dict form returns the same numbers under the same keys. *)
Theorem C06_softmax_dict : forall (A : arith) (d : dict Z A) (p : list A), 
  sfmax (map snd d) = Ok p <-> exists d', sfmax_dict d = Ok d' /\ map fst d' = map fst d /\ map snd d' = p.
Proof.
  intros A d p. pose proof (sfmax_dict_values d) as H. unfold dkeys, dvalues in H.
  destruct (sfmax_dict d) as [d'|e]; destruct (sfmax (map snd d)) as [l|e']; simpl in H; try discriminate.
  - inversion H. split.
    + intro E; inversion E; subst. exists d'. auto.
    + intros (d'' & E & _ & E2). inversion E; subst. f_equal; congruence.
  - split; [discriminate|]. intros (d'' & E & _); discriminate.
Qed.
Print Assumptions C06_softmax_dict.

Example C06_case : exp_nonneg crlibm /\ exp_overflows crlibm f1000 /\ exp_underflows crlibm fm1000 /\
  (exists es, Forall2 (fun x e => is_finite x = true /\ m_exp crlibm x = Some e) [B754_zero false : F64 crlibm] es /\
     is_finite (fold_left f_add es (zero : F64 crlibm)) = true /\
     eqb (fold_left f_add es (zero : F64 crlibm) : F64 crlibm) zero = false).
Proof.
  split; [exact cr_exp_nonneg|]. split; [exact cr_over|]. split; [exact cr_under|].
  destruct (cr_exp_0 false) as (y & E & F & V). exists [y]. repeat split; auto.
  - change (is_finite (f_add (f_ofZE 0 0) y) = true).
    pose proof (f_add_x (f_ofZE 0 0) y) as X. rewrite b2x_zero, (b2x_fin y F) in X. simpl in X.
    rewrite Rplus_0_l, fround_B2R in X. destruct (f_add (f_ofZE 0 0) y) as [|[]| |]; try discriminate; auto.
  - change (f_eqb (f_add (f_ofZE 0 0) y) (f_ofZE 0 0) = false).
    rewrite f_eqb_x, f_add_x, b2x_zero, (b2x_fin y F). simpl. rewrite Rplus_0_l, fround_B2R, V. simpl.
    apply Reqb_neq. apply R1_neq_R0.
Qed.

(** C07.  safe_exp and safe_log never raise; here is what they return. *)
Theorem C07_safe_exp : forall (m : libm) (x : F64 m),
  safe_exp x = Ok (match x return num (F64 m) with
                   | B754_nan => nanv
                   | B754_infinity false => pinf
                   | B754_infinity true => zero
                   | _ => match m_exp m x with Some y => y | None => @pinf (F64 m) end
                   end).
Proof.
  intros m x. unfold safe_exp. simpl. unfold f_exp.
  destruct x as [s|[]| |s mx ex H]; auto; destruct (m_exp m _); auto.
Qed.
Print Assumptions C07_safe_exp.

Theorem C07_safe_log : forall (m : libm) (x : F64 m),
  safe_log x = Ok (match x return num (F64 m) with
                   | B754_nan => nanv
                   | B754_zero _ => ninf
                   | B754_infinity false => pinf
                   | B754_infinity true => nanv
                   | B754_finite true _ _ _ => nanv
                   | B754_finite false _ _ _ => (m_log m x : F64 m)
                   end).
Proof. intros m x. destruct x as [[]|[]| |[] mx ex H]; reflexivity. Qed.
Print Assumptions C07_safe_log.

(** expit of anything but NaN is a number in [0,1]. *)
Theorem C07_expit : forall m, exp_nonneg m -> forall x : F64 m, is_nan x = false ->
  exists p, expit x = Ok p /\ leb zero p = true /\ leb p one = true.
Proof. exact expit_unit. Qed.
Print Assumptions C07_expit.

(** In exact arithmetic expit is the logistic function. *)
Theorem C07_expit_exact : forall x : R, expit (XFin x : XR) = Ok (XFin (logistic x)).
Proof. exact expit_XR. Qed.
Print Assumptions C07_expit_exact.

Example C07_case : forall m, safe_log (num0 (m:=m)) = Ok ninf /\ exp_nonneg crlibm.
Proof. intro m. split; [reflexivity|apply cr_exp_nonneg]. Qed.
