(** The exact arithmetic on finite numbers is real arithmetic. *)
From Coq Require Import Reals Lra.
From Verif Require Import Model.Py Model.Arith Model.XR Model.Utils Model.Base Spec.Matrix Spec.Reals
  Proofs.Lib Proofs.Laws Proofs.Arrays.
Local Open Scope R_scope.

Lemma Rsum_app : forall a b, Rsum (a ++ b) = Rsum a + Rsum b.
Proof. induction a as [|x a IH]; intro b; simpl; [lra|]. rewrite IH. lra. Qed.
Lemma Rsum_scal : forall k l, Rsum (map (fun x => k * x) l) = k * Rsum l.
Proof. intros k l; induction l as [|x l IH]; simpl; [lra|]. rewrite IH. lra. Qed.
Lemma Rsum_div : forall k l, Rsum (map (fun x => x / k) l) = Rsum l / k.
Proof. intros k l; induction l as [|x l IH]; simpl; [unfold Rdiv; lra|]. rewrite IH. unfold Rdiv. lra. Qed.
Lemma Rsum_pos : forall l, Forall (fun x => 0 <= x) l -> 0 <= Rsum l.
Proof. intros l H; induction H; simpl; lra. Qed.
Lemma Rsum_pos_lt : forall l, l <> [] -> Forall (fun x => 0 < x) l -> 0 < Rsum l.
Proof.
  intros l N H. destruct H as [|x l Hx H]; [congruence|]. simpl.
  assert (0 <= Rsum l) by (apply Rsum_pos; eapply Forall_impl; [|exact H]; simpl; intros; lra). lra.
Qed.
Lemma Rsum_ge : forall l x, Forall (fun x => 0 <= x) l -> In x l -> x <= Rsum l.
Proof.
  intros l x H Hin; induction H as [|y l Hy H IH]; [destruct Hin|]. simpl.
  pose proof (Rsum_pos l H). destruct Hin as [<-|Hin]; [lra|]. specialize (IH Hin). lra.
Qed.
Lemma Rsum_map_add : forall {T} (f g : T -> R) l, Rsum (map (fun x => f x + g x) l) = Rsum (map f l) + Rsum (map g l).
Proof. intros T f g l; induction l as [|x l IH]; simpl; [lra|]. rewrite IH; lra. Qed.

Lemma x_zero : (zero : XR) = XFin 0.
Proof. unfold zero, ofZ. simpl. rewrite x_ofZ. auto. Qed.
Lemma x_one : (one : XR) = XFin 1.
Proof. unfold one, ofZ. simpl. rewrite x_ofZ. auto. Qed.
Lemma x_ofZ' : forall z, (ofZ z : XR) = XFin (IZR z).
Proof. intro. unfold ofZ. simpl. apply x_ofZ. Qed.
Lemma x_ofnat : forall n, (ofnat n : XR) = XFin (INR n).
Proof. intro n. unfold ofnat. rewrite x_ofZ', INR_IZR_INZ. auto. Qed.

Lemma fold_fins : forall l a, fold_left (add (a:=XR)) (fins l) (XFin a) = XFin (a + Rsum l).
Proof.
  induction l as [|x l IH]; intro a; simpl; [f_equal; lra|]. rewrite IH. f_equal. lra.
Qed.
Lemma psum_fins : forall l, psum (A:=XR) (fins l) = XFin (Rsum l).
Proof. intro l. unfold psum. rewrite x_zero, fold_fins. f_equal. lra. Qed.

Lemma fins_length : forall l, length (fins l) = length l. Proof. intro; apply map_length. Qed.

Lemma dotp_fins : forall x y, dotp (A:=XR) (fins x) (fins y) = XFin (Rdot x y).
Proof.
  assert (G : forall x y a, fold_left (fun acc p => add (a:=XR) acc (mul (fst p) (snd p))) (combine (fins x) (fins y)) (XFin a) = XFin (a + Rdot x y)).
  { induction x as [|a x IH]; intros [|b y] c; simpl; try (f_equal; lra).
    unfold fins in IH. rewrite IH. f_equal. lra. }
  intros. unfold dotp. rewrite x_zero, G. f_equal. lra.
Qed.

Lemma x_div_fin : forall a b, b <> 0 -> div (a:=XR) (XFin a) (XFin b) = Ok (XFin (a / b)).
Proof. intros a b H. simpl. replace (Reqb b 0) with false by (symmetry; apply Reqb_neq; auto). auto. Qed.

Lemma exps_pos : forall l, Forall (fun x => 0 < x) (map exp l).
Proof. intro l. apply Forall_forall. intros x Hx. apply in_map_iff in Hx. destruct Hx as (y & <- & _). apply exp_pos. Qed.

Lemma mapM_safe_exp : forall l, mapM (safe_exp (A:=XR)) (fins l) = Ok (fins (map exp l)).
Proof. intro l. unfold fins. rewrite mapM_map, map_map. apply (mapM_Ok (fun x => XFin (exp x) : XR)). Qed.

Lemma sfmax_XR : forall l, sfmax (A:=XR) (fins l) = Ok (fins (softmax l)).
Proof.
  intro l. destruct l as [|x0 l0]; [reflexivity|]. set (l := x0 :: l0).
  unfold sfmax. rewrite mapM_safe_exp. cbn [bind]. rewrite psum_fins.
  assert (P : 0 < Rsum (map exp l)) by (apply Rsum_pos_lt; [discriminate|apply exps_pos]).
  unfold fins at 1. rewrite mapM_map.
  rewrite (mapM_pure _ (fun x => XFin (x / Rsum (map exp l)) : XR)).
  - unfold softmax, fins. rewrite !map_map. auto.
  - intros x _. apply x_div_fin. lra.
Qed.

Lemma normalise_dist : forall l, l <> [] -> Forall (fun x => 0 <= x) l -> 0 < Rsum l ->
  distribution (map (fun x => x / Rsum l) l).
Proof.
  intros l N H P. split.
  - apply Forall_forall. intros q Hq. apply in_map_iff in Hq. destruct Hq as (x & <- & Hx).
    pose proof (Rsum_ge l x H Hx). rewrite Forall_forall in H. specialize (H _ Hx). simpl in H.
    unfold Rdiv. assert (0 < / Rsum l) by (apply Rinv_0_lt_compat; auto). split.
    + apply Rmult_le_pos; lra.
    + apply Rmult_le_reg_r with (Rsum l); auto. rewrite Rmult_assoc, Rinv_l by lra. lra.
  - rewrite Rsum_div. field. lra.
Qed.

Lemma softmax_dist : forall l, l <> [] -> distribution (softmax l).
Proof.
  intros l N. unfold softmax.
  replace (map (fun x => exp x / Rsum (map exp l)) l) with (map (fun x => x / Rsum (map exp l)) (map exp l)) by (rewrite map_map; auto).
  apply normalise_dist.
  - destruct l; simpl; congruence.
  - eapply Forall_impl; [|apply exps_pos]. simpl; intros; lra.
  - apply Rsum_pos_lt; [destruct l; simpl; congruence|apply exps_pos].
Qed.

Lemma expit_XR : forall x : R, expit (XFin x : XR) = Ok (XFin (logistic x)).
Proof.
  intro x. unfold expit, safe_exp. cbn [opp XR expv x_opp x_exp bind]. rewrite x_one. cbn [add XR x_add].
  pose proof (exp_pos (- x)). rewrite x_div_fin by lra. unfold logistic, Rdiv. rewrite Rmult_1_l. auto.
Qed.

Lemma Rsum_swap : forall {T U} (f : T -> U -> R) (l : list T) (m : list U),
  Rsum (map (fun x => Rsum (map (f x) m)) l) = Rsum (map (fun y => Rsum (map (fun x => f x y) l)) m).
Proof.
  intros T U f l m; induction l as [|x l IH]; simpl.
  - induction m; simpl; lra.
  - rewrite IH. rewrite <- Rsum_map_add. auto.
Qed.
Lemma map_nth_seq : forall {T} (l : list T) d, map (fun j => nth j l d) (seq 0 (length l)) = l.
Proof.
  intros T l d. apply list_eq_nth. intro n. rewrite nth_error_map', nth_error_seq. simpl.
  destruct (Nat.ltb_spec n (length l)); simpl.
  - symmetry. apply nth_error_nth'. auto.
  - symmetry. apply nth_error_None. auto.
Qed.
Lemma Rsum_const : forall {T} (l : list T) k, Rsum (map (fun _ => k) l) = k * INR (length l).
Proof. intros T l k. induction l as [|x l IH]; simpl length; [simpl; lra|]. rewrite S_INR. simpl. rewrite IH. lra. Qed.
Lemma logistic_lt : forall x y, logistic x < logistic y <-> x < y.
Proof.
  assert (M : forall x y, x < y -> logistic x < logistic y).
  { intros x y H. unfold logistic. pose proof (exp_pos (- x)). pose proof (exp_pos (- y)).
    apply Rinv_lt_contravar; [apply Rmult_lt_0_compat; lra|]. apply Rplus_lt_compat_l, exp_increasing. lra. }
  intros x y. split; auto. intro H. destruct (Rlt_or_le x y) as [|[C|C]]; auto; [apply M in C; lra|subst; lra].
Qed.
Lemma logistic_0 : logistic 0 = 1 / 2.
Proof. unfold logistic. rewrite Ropp_0, exp_0. lra. Qed.
Lemma logistic_ln3 : logistic (- ln 3) = 1 / 4.
Proof. unfold logistic. rewrite Ropp_involutive, exp_ln by lra. lra. Qed.
