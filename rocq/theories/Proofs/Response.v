(** Rounded dot products respond to a change of the row in the direction of the
    coefficients. *)
From Coq Require Import String Reals Lia Lra.
From Flocq Require Import Core BinarySingleNaN.
From Verif Require Import Model.Py Model.Arith Model.F64 Model.XR Model.Utils Model.Base.
From Verif Require Import Spec.Matrix Spec.Reals Spec.Response.
From Verif Require Import Proofs.Lib Proofs.Laws Proofs.Round Proofs.Unit Proofs.Order.
Local Open Scope R_scope.

Lemma inf_times_pos : forall s r, r <> 0 -> x_inf_times s r = if Rlt_dec r 0 then (if s then XPInf else XNInf) else if s then XNInf else XPInf.
Proof. intros s r H. unfold x_inf_times, Reqb, Rltb. destruct (Req_EM_T r 0); [contradiction|]. destruct (Rlt_dec r 0), s; reflexivity. Qed.

Section F.
  Variable m : libm.

  Lemma mul_up : forall a b v : F64 m, leb zero v = true -> leb a b = true -> isnan (mul a v) = false -> isnan (mul b v) = false ->
    leb (mul a v) (mul b v) = true.
  Proof.
    intros a b v Hv H Na Nb. rewrite nan_x in *. f64. rewrite f_leb_x in *. rewrite f_mul_x, xround_nan in Na, Nb. rewrite !f_mul_x, b2x_zero in *.
    apply xround_mono.
    destruct (b2x v) as [| | |r]; try discriminate; destruct (b2x a) as [| | |p], (b2x b) as [| | |q]; try discriminate; cbn [x_mul x_leb] in *; auto.
    all: try (apply Rleb_le in Hv); try (apply Rleb_le in H).
    all: unfold x_inf_times in *.
    all: repeat match goal with
      | |- context[Reqb ?x 0] => let E := fresh in destruct (Reqb x 0) eqn:E; [apply Reqb_eq in E; try discriminate|apply Reqb_neq in E; try discriminate]
      | |- context[Rltb ?x 0] => let E := fresh in destruct (Rltb x 0) eqn:E; [apply Rltb_lt in E|apply Rltb_ge in E]
      | K : context[Reqb ?x 0] |- _ => let E := fresh in destruct (Reqb x 0) eqn:E; [apply Reqb_eq in E; try discriminate|apply Reqb_neq in E; try discriminate]
      end; cbn [xorb x_leb]; auto; try lra; try discriminate.
    all: try (apply Rleb_le; apply Rmult_le_compat_r; lra).
  Qed.
  Lemma mul_down : forall a b v : F64 m, leb v zero = true -> leb b a = true -> isnan (mul a v) = false -> isnan (mul b v) = false ->
    leb (mul a v) (mul b v) = true.
  Proof.
    intros a b v Hv H Na Nb. rewrite nan_x in *. f64. rewrite f_leb_x in *. rewrite f_mul_x, xround_nan in Na, Nb. rewrite !f_mul_x, b2x_zero in *.
    apply xround_mono.
    destruct (b2x v) as [| | |r]; try discriminate; destruct (b2x a) as [| | |p], (b2x b) as [| | |q]; try discriminate; cbn [x_mul x_leb] in *; auto.
    all: try (apply Rleb_le in Hv); try (apply Rleb_le in H).
    all: unfold x_inf_times in *.
    all: repeat match goal with
      | |- context[Reqb ?x 0] => let E := fresh in destruct (Reqb x 0) eqn:E; [apply Reqb_eq in E; try discriminate|apply Reqb_neq in E; try discriminate]
      | |- context[Rltb ?x 0] => let E := fresh in destruct (Rltb x 0) eqn:E; [apply Rltb_lt in E|apply Rltb_ge in E]
      | K : context[Reqb ?x 0] |- _ => let E := fresh in destruct (Reqb x 0) eqn:E; [apply Reqb_eq in E; try discriminate|apply Reqb_neq in E; try discriminate]
      end; cbn [xorb x_leb]; auto; try lra; try discriminate.
    all: try (apply Rleb_le; nra).
  Qed.
  Lemma add_up : forall a b c d : F64 m, leb a b = true -> leb c d = true -> isnan (add a c) = false -> isnan (add b d) = false ->
    leb (add a c) (add b d) = true.
  Proof.
    intros a b c d H H' Na Nb. rewrite nan_x in *. f64. rewrite f_leb_x in *. rewrite f_add_x, xround_nan in Na, Nb. rewrite !f_add_x.
    apply xround_mono. destruct (b2x a), (b2x b), (b2x c), (b2x d); try discriminate; cbn [x_add x_leb] in *; auto.
    apply Rleb_le in H, H'. apply Rleb_le. lra.
  Qed.
  Lemma add_nan : forall a b : F64 m, isnan (add a b) = false -> isnan a = false /\ isnan b = false.
  Proof.
    intros a b N. rewrite nan_x in N. rewrite !nan_x. f64. rewrite f_add_x, xround_nan in N. destruct (b2x a), (b2x b); try discriminate; auto.
  Qed.
  Lemma fold_nan : forall (l : list (F64 m * F64 m)) acc, isnan (fold_left (fun acc p => add acc (mul (fst p) (snd p))) l acc) = false -> isnan acc = false.
  Proof. induction l as [|p l IH]; intros acc N; cbn [fold_left] in N; auto. apply IH in N. apply add_nan in N. tauto. Qed.
  Lemma dotp_up : forall w x y : list (F64 m), towards w x y -> isnan (dotp x w) = false -> isnan (dotp y w) = false -> leb (dotp x w) (dotp y w) = true.
  Proof.
    intros w x y (Lx & Ly & H). unfold dotp.
    assert (G : forall p q : F64 m, leb p q = true ->
      isnan (fold_left (fun acc p => add acc (mul (fst p) (snd p))) (combine x w) p) = false ->
      isnan (fold_left (fun acc p => add acc (mul (fst p) (snd p))) (combine y w) q) = false ->
      leb (fold_left (fun acc p => add acc (mul (fst p) (snd p))) (combine x w) p) (fold_left (fun acc p => add acc (mul (fst p) (snd p))) (combine y w) q) = true).
    { revert x y Lx Ly H. induction w as [|v w IH]; intros [|a x] [|b y] Lx Ly H p q L N N'; try discriminate; [exact L|].
      cbn [combine fold_left fst snd] in *. pose proof (fold_nan _ _ N) as N1. pose proof (fold_nan _ _ N') as N1'.
      apply (IH x y); [exact (f_equal Nat.pred Lx)|exact (f_equal Nat.pred Ly)|intro j; exact (H (S j))| |exact N|exact N']. apply add_up; auto.
      apply add_nan in N1. apply add_nan in N1'. destruct (H 0%nat v a b eq_refl eq_refl eq_refl) as [[Hv Hab]|[Hv Hab]]; [apply mul_up|apply mul_down]; tauto. }
    apply G. reflexivity.
  Qed.
End F.
