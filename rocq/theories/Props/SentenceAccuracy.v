(** C55: fastText sentence vectors on doubles are the exact means. *)
From Coq Require Import String Reals Lia Lra.
From Flocq Require Import Core BinarySingleNaN.
From Verif Require Import Model.Py Model.Arith Model.F64 Model.XR Model.Utils Model.Base Model.Text Model.FastText.
From Verif Require Import Spec.Matrix Spec.Reals Spec.Libm Spec.Text Spec.Ensembles Spec.FastText Spec.Rounding.
From Verif Require Import Proofs.Lib Proofs.Laws Proofs.Round Proofs.Unit Proofs.Arrays Proofs.RealLib Proofs.Text Proofs.FastText Proofs.SumErr Proofs.DotErr Proofs.NormErr Proofs.BoostErr.
From Verif Require Import Props.Text Props.FastText Props.Accuracy.
Import ListNotations.
Local Open Scope R_scope.

(** The computed mean of finite numbers of either sign. *)
Lemma signed_mean : forall (col : list f64) (q : f64), col <> [] -> (Z.of_nat (length col) <= 2 ^ 52)%Z -> all_finite col ->
  Rsum (map Rabs (reals col)) <= bpow radix2 990 ->
  f_div (fold_left f_add col (f_ofZE 0 0)) (f_ofZE (Z.of_nat (length col)) 0) = Ok q ->
  is_finite q = true /\
  Rabs (real q - Rmean (reals col)) <= (INR (length col) + 1) * ulp1 * Rmean (map Rabs (reals col)) + tiny.
Proof.
  intros col q NC BK FC SB D. set (n := length col) in *.
  assert (N1 : (1 <= n)%nat) by (unfold n; destruct col; [congruence|cbn; lia]).
  assert (KP : 1 <= INR n) by (apply (le_INR 1); exact N1).
  assert (HZ : (Z.abs (Z.of_nat n) <= 2 ^ 53)%Z) by lia.
  destruct (real_ofZ (Z.of_nat n) HZ) as [KR KF]. rewrite <- INR_IZR_INZ in KR.
  destruct (real_ofZ 0 ltac:(cbn; lia)) as [ZR ZF].
  pose proof u_pos as UP. pose proof u_le as UL. destruct (pow_up n BK) as ([W1 W2] & W3).
  set (a := Rsum (map Rabs (reals col))) in *. assert (A0 : 0 <= a) by (apply (Rasum_pos (reals col))).
  assert (B1 : bpow radix2 990 * 2 <= bpow radix2 1000) by (change 2 with (bpow radix2 1); rewrite <- bpow_plus; apply bpow_le; lia).
  assert (B2 : bpow radix2 1000 <= bpow radix2 1020) by (apply bpow_le; lia).
  destruct (fold_signed col (f_ofZE 0 0) FC ZF) as [FS ES].
  { rewrite ZR, Rabs_R0, Rplus_0_l. change (Rasum (map real col)) with a. fold n.
    apply Rle_trans with (a * 2); [apply Rmult_le_compat_l; lra|lra]. }
  rewrite ZR, Rabs_R0, !Rplus_0_l in ES. change (Rasum (map real col)) with a in ES. change (map real col) with (reals col) in ES. fold n in ES.
  set (S := real (fold_left f_add col (f_ofZE 0 0))) in *. set (s := Rsum (reals col)) in *.
  assert (SA : Rabs s <= a).
  { unfold s, a. clear. induction (reals col) as [|x l IH]; cbn [map Rsum]; [rewrite Rabs_R0; lra|]. eapply Rle_trans; [apply Rabs_triang|lra]. }
  assert (SS : Rabs S <= 2 * a).
  { replace S with ((S - s) + s) by ring. eapply Rle_trans; [apply Rabs_triang|].
    assert (((1 + u) ^ n - 1) * a <= 1 * a) by (apply Rmult_le_compat_r; lra). lra. }
  assert (IN : 0 < / INR n <= 1).
  { split; [apply Rinv_0_lt_compat; lra|]. rewrite <- Rinv_1. apply Rinv_le_contravar; lra. }
  assert (QB : Rabs (S / INR n) <= 2 * a * / INR n).
  { unfold Rdiv. rewrite Rabs_mult, (Rabs_pos_eq (/ INR n)) by lra. apply Rmult_le_compat_r; lra. }
  destruct (div_fits _ _ _ FS KF D) as (Fq & d & e & Hd & He & Eq).
  { rewrite KR. fold S. eapply Rle_trans; [exact QB|]. apply Rle_trans with (2 * a * 1); [apply Rmult_le_compat_l; lra|lra]. }
  split; [exact Fq|]. rewrite KR in Eq. fold S in Eq.
  assert (RM : Rmean (reals col) = s * / INR n) by (unfold Rmean, Rdiv; unfold reals at 2; rewrite map_length; reflexivity).
  assert (RA : Rmean (map Rabs (reals col)) = a * / INR n) by (unfold Rmean, Rdiv; rewrite map_length; unfold reals at 2; rewrite map_length; reflexivity).
  rewrite RM, RA, Eq. replace (S / INR n * (1 + d) + e - s * / INR n) with ((S - s) * / INR n + (S / INR n * d + e)) by (unfold Rdiv; ring).
  pose proof eta_pos. pose proof tiny_eta as TE. pose proof ulp1_u as U1.
  eapply Rle_trans; [apply Rabs_triang|].
  assert (T1 : Rabs ((S - s) * / INR n) <= INR n * ulp1 * (a * / INR n)).
  { rewrite Rabs_mult, (Rabs_pos_eq (/ INR n)) by lra. rewrite <- Rmult_assoc. apply Rmult_le_compat_r; [lra|].
    eapply Rle_trans; [exact ES|]. apply Rmult_le_compat_r; lra. }
  assert (T2 : Rabs (S / INR n * d + e) <= ulp1 * (a * / INR n) + tiny).
  { eapply Rle_trans; [apply Rabs_triang|]. apply Rplus_le_compat; [|lra]. rewrite Rabs_mult.
    apply Rle_trans with (2 * a * / INR n * u); [apply Rmult_le_compat; try apply Rabs_pos; auto|]. rewrite U1. lra. }
  lra.
Qed.

(** C55.  The sentence vector of a supervised model, on doubles, for finite
    word vectors whose components stay away from overflow: it exists, has the
    model's dimension, and each component is the exact mean of the components
    of the known words (and of </s> if it is known) up to (n+1) ulps of the mean
    absolute value, n the number of vectors. *)
Theorem C55_accuracy_float : forall (m : libm) (U : textlib) (f : fasttext (F64 m)) s text ws ks vs N dim,
  f_sup f = Some s -> x_space U 10 = true -> ~ In 10%Z text -> words (x_space U) text ws ->
  restricted (f_words f) (ws ++ [lit "</s>"]) ks -> ks <> [] ->
  rect (f_input f) N dim -> Forall2 (vector_of (f_words f) (f_input f)) ks vs ->
  (Z.of_nat (length vs) <= 2 ^ 52)%Z -> Forall all_finite vs ->
  (forall j, (j < dim)%nat -> Rsum (map (fun v => Rabs (nth j (reals v) 0)) vs) <= bpow radix2 990) ->
  exists out, get_sentence_vector U f text = Ok out /\ length out = dim /\
    forall j x, nth_error out j = Some x -> is_finite x = true /\
      Rabs (real x - Rmean (map (fun v => nth j (reals v) 0) vs))
        <= (INR (length vs) + 1) * ulp1 * Rmean (map (fun v => Rabs (nth j (reals v) 0)) vs) + tiny.
Proof.
  intros m U f s text ws ks vs N dim ES HS HN HW HR NK RI HV BK FV SB.
  assert (RV : rect vs (length ks) dim).
  { split; [symmetry; eapply Forall2_len; eauto|]. apply Forall_forall. intros v Hv. apply In_nth_error in Hv. destruct Hv as [j Hj].
    apply Forall2_nth_error in HV. destruct HV as [LV HV]. destruct (nth_error_len _ _ _ _ LV Hj) as [k Hk]. destruct (HV j k v Hk Hj) as (i & _ & Hi).
    destruct RI as [_ RI]. rewrite Forall_forall in RI. apply RI. eapply nth_error_In; eauto. }
  assert (LV : length vs = length ks) by apply RV.
  assert (K1 : (1 <= length ks)%nat) by (destruct ks; [congruence|cbn; lia]).
  destruct (C55_supervised_total m vs (length ks) dim RV K1) as [out AV]; [lia|]. exists out.
  assert (HR' : restricted (f_words f) (ws ++ match f_sup f with Some _ => [lit "</s>"] | None => [] end) ks) by (rewrite ES; exact HR).
  pose proof (proj2 (C55_partial (F64 m) U f text ws ks vs N dim HS HN HW HR' NK RI HV out)) as E. rewrite ES in E. split; [exact (E AV)|].
  destruct AV as [LO AV]. split; [exact LO|]. intros j x Hj. destruct (AV j x Hj) as (col & HC & D).
  assert (Lj : (j < dim)%nat) by (rewrite <- LO; apply nth_error_Some; congruence).
  assert (LC : length vs = length col) by (eapply Forall2_len; exact HC).
  assert (G : reals col = map (fun v : list f64 => nth j (reals v) 0) vs /\ all_finite col).
  { clear - HC FV. change (num (F64 m)) with f64 in *. induction HC as [|v c vs col Hc HC IH]; [split; [reflexivity|constructor]|].
    inversion FV as [|? ? Fv FV']; subst. destruct (IH FV') as [I1 I2]. split.
    - cbn [reals map]. f_equal; [|exact I1]. symmetry. apply nth_error_nth. unfold reals. rewrite nth_error_map', Hc. reflexivity.
    - constructor; [|exact I2]. unfold all_finite in Fv. rewrite Forall_forall in Fv. apply Fv. eapply nth_error_In; eauto. }
  destruct G as [G FC].
  assert (GA : map Rabs (reals col) = map (fun v : list f64 => Rabs (nth j (reals v) 0)) vs) by (rewrite G, map_map; reflexivity).
  change (num (F64 m)) with f64 in *. rewrite <- GA, <- G, LC. apply signed_mean.
  - intros ->. cbn in LC. lia.
  - rewrite <- LC. exact BK.
  - exact FC.
  - rewrite GA. apply SB. exact Lj.
  - rewrite <- LC. exact D.
Qed.
Print Assumptions C55_accuracy_float.

(** "dog  cow cat" with three known words (dog, cat and </s>). *)
Example C55_accuracy_ex : forall m : libm, exists out,
  get_sentence_vector ex_lib (ex_ft (A:=F64 m)) (lit "dog  cow cat") = Ok out /\ length out = 2%nat /\
  forall j x, nth_error out j = Some x -> is_finite (x : f64) = true /\ Rabs (real x - nth j [2; 3] 0) <= 20 * ulp1 + tiny.
Proof.
  intro m. assert (FI : forall n, (Z.abs n <= 2 ^ 53)%Z -> is_finite (f_ofZE n 0) = true) by (intros; apply real_ofZ; auto).
  destruct (C55_accuracy_float m ex_lib (ex_ft (A:=F64 m)) (lit "softmax", [lit "a"; lit "b"; lit "c"], [[ofZ 1; ofZ 0]; [ofZ 0; ofZ 1]; [ofZ 1; ofZ 0]]) (lit "dog  cow cat") [lit "dog"; lit "cow"; lit "cat"] [lit "dog"; lit "cat"; lit "</s>"]
    [[ofZ 3; ofZ 5]; [ofZ 1; ofZ 2]; [ofZ 2; ofZ 2]] 4 2) as (out & E & L & B).
  - reflexivity.
  - reflexivity.
  - cbn. intuition discriminate.
  - apply (proj1 (words_split ex_lib 100 (lit "dog  cow cat") ltac:(cbn; lia))).
  - apply (restricted_filter' (f_words (ex_ft (A:=F64 m)))).
  - discriminate.
  - split; [reflexivity|repeat constructor].
  - constructor; [exists 1%nat|constructor; [exists 0%nat|constructor; [exists 3%nat|constructor]]]; (split; [|reflexivity]); (split; [reflexivity|]);
      intros [|[|[|j]]] Hj; try lia; cbn; discriminate.
  - cbn; lia.
  - repeat constructor; apply FI; cbn; lia.
  - intros [|[|j]] Hj; [..|lia]; change (@ofZ (F64 m)) with (fun n => f_ofZE n 0); cbv beta; unfold reals; cbn [map nth Rsum];
      rewrite !(fun n H => proj1 (real_ofZ n H)) by (cbn; lia); rewrite !Rabs_pos_eq by lra;
      (apply Rle_trans with (bpow radix2 10); [cbn; lra|apply bpow_le; lia]).
  - exists out. split; [exact E|]. split; [exact L|]. intros j x Hj. destruct (B j x Hj) as [F Q]. split; [exact F|].
    assert (Lj : (j < 2)%nat) by (rewrite <- L; apply nth_error_Some; congruence). assert (0 <= ulp1) by (unfold ulp1; apply bpow_ge_0).
    revert Q. change (@ofZ (F64 m)) with (fun n => f_ofZE n 0). unfold Rmean, reals. cbn [length INR].
    destruct j as [|[|j]]; [..|lia]; cbn [map nth Rsum length INR]; rewrite !(fun n H => proj1 (real_ofZ n H)) by (cbn; lia); rewrite !(Rabs_pos_eq (IZR _)) by lra;
      intro Q; match type of Q with Rabs (_ - ?a) <= _ => match goal with |- Rabs (_ - ?b) <= _ => replace b with a by field end end; (eapply Rle_trans; [exact Q|]); lra.
Qed.
