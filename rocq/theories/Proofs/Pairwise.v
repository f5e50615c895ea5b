From Coq Require Import String Reals Lia Lra.
From Verif Require Import Model.Py Model.Arith Model.F64 Model.XR Model.Utils Model.Base Model.Preprocessing Model.Pairwise.
From Verif Require Import Spec.Matrix Spec.Reals Spec.Scaling Spec.Pairwise.
From Verif Require Import Proofs.Lib Proofs.Laws Proofs.RealLib Proofs.Arrays Proofs.Arrays2 Proofs.Ensemble Proofs.Impute Proofs.Scaling.
Local Open Scope nat_scope.

Section Generic.
  Context {A : arith}.
  Lemma ndim_ll : forall (M : list (list A)) r c, rect M r c -> 1 <= r -> ndim (ll M) = Ok 2.
  Proof. intros M r c [L R] H. destruct M; [simpl in L; lia|]. reflexivity. Qed.
  Lemma ndim_sp : forall (rows : list (dict Z A)) sz dt, rows <> [] -> ndim (Sp rows sz dt) = Ok 2.
  Proof. intros [|d rows] sz dt H; [congruence|]. reflexivity. Qed.
  Lemma shape1_sp : forall (rows : list (dict Z A)) sz dt, rows <> [] -> shape1 (Sp rows sz dt) = Ok sz.
  Proof. intros [|d rows] sz dt H; [congruence|]. reflexivity. Qed.
  Lemma check_pw_ll : forall (X Y : list (list A)) r s k k', rect X r k -> rect Y s k' -> 1 <= r -> 1 <= s ->
    check_pairwise (ll X) (YOther (ll Y)) = if k =? k' then Ok (ll X, ll Y) else Err ValueError.
  Proof.
    intros X Y r s k k' RX RY Hr Hs. unfold check_pairwise. cbn [y_of]. rewrite (ndim_ll X r k), (ndim_ll Y s k') by auto. cbn [bind Nat.eqb guard]. rewrite (shape1_ll X r k), (shape1_ll Y s k') by auto. cbn [bind oz_eqb].
    destruct (Nat.eqb_spec k k') as [->|N]; [rewrite Z.eqb_refl; auto|]. destruct (Z.eqb_spec (Z.of_nat k) (Z.of_nat k')); [lia|]. auto.
  Qed.
  Lemma check_pw_self : forall (X : list (list A)) r k Y, rect X r k -> 1 <= r -> Y = YNone \/ Y = YSame ->
    check_pairwise (ll X) Y = Ok (ll X, ll X).
  Proof.
    intros X r k Y RX Hr HY. unfold check_pairwise. assert (E : y_of (ll X) Y = ll X) by (destruct HY as [-> | ->]; auto). rewrite E.
    rewrite (ndim_ll X r k) by auto. cbn [bind Nat.eqb guard]. rewrite (shape1_ll X r k) by auto. cbn [bind oz_eqb]. rewrite Z.eqb_refl. auto.
  Qed.
  Lemma check_pw_sp : forall rows dt (Y : list (list A)) s k, rows <> [] -> rect Y s k -> 1 <= s ->
    check_pairwise (Sp rows (Some (Z.of_nat k)) dt) (YOther (ll Y)) = Ok (Sp rows (Some (Z.of_nat k)) dt, ll Y).
  Proof.
    intros rows dt Y s k N RY Hs. unfold check_pairwise. cbn [y_of]. rewrite (ndim_sp rows), (ndim_ll Y s k) by auto. cbn [bind Nat.eqb guard]. rewrite (shape1_sp rows), (shape1_ll Y s k) by auto. cbn [bind oz_eqb]. rewrite Z.eqb_refl. auto.
  Qed.
  Lemma dense_rows_ll : forall M : list (list A), dense_rows (ll M) = Ok M.
  Proof. intro M. unfold dense_rows, ll. cbn [items bind]. rewrite mapM_map. rewrite (mapM_pure _ (fun x => x)) by auto. rewrite map_id. auto. Qed.
  Lemma dot_2d_ll : forall X B : list (list A), dot_2d (ll X) B = Ok (table dotp X B).
  Proof. intros X B. unfold dot_2d, ll. cbn [items bind]. rewrite mapM_map. apply mapM_pure. intros row _. apply dot_dense. Qed.
  Lemma dotp_comm : arith_ok A -> forall x y : list A, dotp x y = dotp y x.
  Proof.
    intros OK x y. unfold dotp. generalize (zero : A). revert y. induction x as [|a x IH]; intros [|b y] acc; auto. cbn [combine fold_left fst snd]. rewrite (a_mul_comm _ OK a b). apply IH.
  Qed.
  Lemma set_diag_cell : forall (S : list (list A)) i j v, cell S i j = Some v -> cell (set_diag S) i j = Some (if i =? j then zero else v).
  Proof.
    intros S i j v H. unfold cell, set_diag in *. destruct (nth_error S i) as [row|] eqn:E; [|discriminate].
    rewrite nth_error_map', nth_error_combine, E. unfold range. rewrite nth_error_seq. replace (i <? length S) with true by (symmetry; apply Nat.ltb_lt; eapply nth_error_lt; eauto). cbn [option_map fst snd plus].
    rewrite nth_error_map', nth_error_combine, H, nth_error_seq. replace (j <? length row) with true by (symmetry; apply Nat.ltb_lt; eapply nth_error_lt; eauto). auto.
  Qed.
  Lemma set_diag_rect : forall (S : list (list A)) r c, rect S r c -> rect (set_diag S) r c.
  Proof.
    intros S r c [L R]. unfold set_diag. split.
    - rewrite map_length, combine_length. unfold range. rewrite seq_length. lia.
    - apply Forall_forall. intros x Hx. apply in_map_iff in Hx. destruct Hx as ([i row] & <- & H). apply in_combine_r in H. rewrite Forall_forall in R. cbn [fst snd]. rewrite map_length, combine_length. unfold range. rewrite seq_length. rewrite (R row H). lia.
  Qed.
  Lemma table_rect : forall {S T} (f : S -> T -> A) X Y, rect (table f X Y) (length X) (length Y).
  Proof. intros S T f X Y. split; [apply map_length|]. apply Forall_forall. intros r Hr. apply in_map_iff in Hr. destruct Hr as (x & <- & _). apply map_length. Qed.
  Lemma table_cell : forall {S T U} (f : S -> T -> U) X Y i j, cell (table f X Y) i j =
    match nth_error X i, nth_error Y j with Some x, Some y => Some (f x y) | _, _ => None end.
  Proof. intros S T U f X Y i j. unfold cell, table. rewrite nth_error_map'. destruct (nth_error X i); cbn [option_map]; auto. rewrite nth_error_map'. destruct (nth_error Y j); auto. Qed.
  Lemma clip_ok : forall s : A, gtb (add (opp s) one) (ofZ 2) = ltb (ofZ 2 : A) (add (opp s) one) -> clipped s (pw_clip (add (opp s) one) zero (ofZ 2)).
  Proof.
    intros s G. unfold clipped, pw_clip. cbv zeta. rewrite G. destruct (ltb (add (opp s) one) zero); auto. destruct (ltb (ofZ 2 : A) (add (opp s) one)); auto.
  Qed.
End Generic.

Local Open Scope R_scope.
Lemma Rdot_comm : forall x y, Rdot x y = Rdot y x.
Proof. induction x as [|a x IH]; intros [|b y]; simpl; auto. rewrite IH. lra. Qed.
Lemma Rdot_scale : forall k x y, Rdot (map (fun a => a * k) x) y = k * Rdot x y.
Proof. intros k x. induction x as [|a x IH]; intros [|b y]; simpl; try lra. rewrite IH. lra. Qed.
Lemma cauchy : forall x y, Rdot x y * Rdot x y <= Rdot x x * Rdot y y.
Proof.
  induction x as [|a x IH]; intros [|b y]; simpl; try lra.
  specialize (IH y). pose proof (Rdot_self_pos x) as PX. pose proof (Rdot_self_pos y) as PY. set (S := Rdot x y) in *. set (P := Rdot x x) in *. set (Q := Rdot y y) in *.
    assert (H : 2 * (a * b * S) <= a * a * Q + b * b * P).
    { assert (0 <= a * a * Q) by (apply Rmult_le_pos; auto; nra). assert (0 <= b * b * P) by (apply Rmult_le_pos; auto; nra).
      assert (E : (a * b * S) * (a * b * S) <= (a * a * Q) * (b * b * P)). { replace ((a * b * S) * (a * b * S)) with ((a * a * (b * b)) * (S * S)) by ring. replace ((a * a * Q) * (b * b * P)) with ((a * a * (b * b)) * (P * Q)) by ring. apply Rmult_le_compat_l; auto. nra. }
      set (t := a * b * S) in *. set (p := a * a * Q) in *. set (q := b * b * P) in *. destruct (Rle_dec (2 * t) (p + q)); auto. exfalso. assert (p + q < 2 * t) by lra. assert ((p + q) * (p + q) < 2 * t * (2 * t)) by nra. pose proof (Rle_0_sqr (p - q)) as SQ. unfold Rsqr in SQ. nra. }
    nra.
Qed.
Lemma Rl2_sq : forall x, Rl2 x * Rl2 x = Rdot x x.
Proof. intro x. unfold Rl2. apply sqrt_sqrt. apply Rdot_self_pos. Qed.
Lemma Rl2_nonneg : forall x, 0 <= Rl2 x. Proof. intro. apply sqrt_pos. Qed.
Lemma Rcos_bound : forall x y, -1 <= Rcos x y <= 1.
Proof.
  intros x y. unfold Rcos. destruct (Req_EM_T (Rl2 x) 0); [lra|]. destruct (Req_EM_T (Rl2 y) 0); [lra|].
  pose proof (Rl2_nonneg x). pose proof (Rl2_nonneg y). assert (P : 0 < Rl2 x * Rl2 y) by (apply Rmult_lt_0_compat; lra).
  pose proof (cauchy x y) as C. rewrite <- !Rl2_sq in C.
  assert (B : Rabs (Rdot x y) <= Rl2 x * Rl2 y). { apply Rsqr_incr_0_var; [|lra]. rewrite <- Rsqr_abs. unfold Rsqr. nra. }
  assert (B1 : - (Rl2 x * Rl2 y) <= Rdot x y <= Rl2 x * Rl2 y) by (revert B; unfold Rabs; destruct (Rcase_abs _); lra). split.
  - apply Rmult_le_reg_r with (Rl2 x * Rl2 y); auto. unfold Rdiv. rewrite Rmult_assoc, Rinv_l by lra. lra.
  - apply Rmult_le_reg_r with (Rl2 x * Rl2 y); auto. unfold Rdiv. rewrite Rmult_assoc, Rinv_l by lra. lra.
Qed.
Lemma Rl2_zero : forall x, Rl2 x = 0 -> Forall (fun a => a = 0) x.
Proof.
  intros x H. assert (E : Rdot x x = 0) by (rewrite <- Rl2_sq, H; ring). clear H. induction x as [|a x IH]; constructor; simpl in E; pose proof (Rdot_self_pos x); assert (0 <= a * a) by nra.
  - assert (a * a = 0) by lra. nra.
  - apply IH. lra.
Qed.
Lemma Rdot_zero : forall x y, Forall (fun a => a = 0) x -> Rdot x y = 0.
Proof. intros x y H. revert y. induction H as [|a x -> H IH]; intros [|b y]; simpl; try lra. rewrite IH. lra. Qed.
Lemma Rdot_unitise : forall x y, Rdot (unitise Rl2 x) (unitise Rl2 y) = Rcos x y.
Proof.
  intros x y. unfold Rcos, unitise, Reqb.
  destruct (Req_EM_T (Rl2 x) 0) as [E|E]; [apply Rdot_zero, Rl2_zero; auto|].
  destruct (Req_EM_T (Rl2 y) 0) as [F|F]; [rewrite Rdot_comm; apply Rdot_zero, Rl2_zero; auto|].
  unfold Rdiv. rewrite Rdot_scale, Rdot_comm, Rdot_scale, Rdot_comm. field. auto.
Qed.
