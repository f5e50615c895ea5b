(** ComplementNB on doubles, from the rows to the probabilities. *)
From Coq Require Import String Reals Lia Lra List.
From Flocq Require Import Core BinarySingleNaN.
From Verif Require Import Model.Py Model.Arith Model.F64 Model.XR Model.Utils Model.Base Model.Linear Model.NaiveBayes.
From Verif Require Import Spec.Matrix Spec.Reals Spec.Linear Spec.Bayes Spec.Libm Spec.Rounding.
From Verif Require Import Proofs.Lib Proofs.Laws Proofs.Round Proofs.Unit Proofs.CRLibm Proofs.RealLib Proofs.SumErr Proofs.DotErr Proofs.ExpErr Proofs.LseErr.
From Verif Require Import Props.Linear Props.Bayes Props.Accuracy Props.Probabilities Props.BayesAccuracy.
Import ListNotations.
Local Open Scope R_scope.

(** A running sum that starts at 0 absorbs one more 0. *)
Lemma dotp_zero : forall m (row w : list (F64 m)), add (dotp row w) zero = dotp row w.
Proof.
  intros m row w. unfold dotp.
  assert (G : forall l (a : F64 m), clean a -> clean (fold_left (fun acc (p : F64 m * F64 m) => add acc (mul (fst p) (snd p))) l a)).
  { induction l as [|p l IH]; intros a C; cbn [fold_left]; auto. apply IH. apply (a_clean_add _ (F64_ok m)). exact C. }
  apply (G _ zero). apply (a_clean0 _ (F64_ok m)).
Qed.

(** C26.  ComplementNB with several classes, end to end: the probabilities are
    the softmax of the exact scores row . w_k (no prior is used), for finite
    rows and weights whose scores stay between -599 and 599 and whose rounding
    error, (number of columns + 2) ulps of the absolute terms, is at most [e]. *)
Theorem C26_complement_end_float : forall m d dl e (L : Type) (c : discrete (F64 m) L) K (M : list (list (F64 m))),
  exp_accurate m d -> log_accurate m dl -> 0 <= d <= / 16 -> 0 <= dl <= / 4096 -> 0 <= e <= / 4 -> (2 <= K)%nat -> (Z.of_nat K <= 2 ^ 46)%Z ->
  length (d_classes c) = K -> length (d_log_prob c) = K -> M <> [] -> Forall all_finite (d_log_prob c) ->
  Forall (fun row : list (F64 m) => all_finite row /\ (Z.of_nat (length row) + 1 < 2 ^ 52)%Z /\
    forall w, In w (d_log_prob c) -> Rabsdot (reals row) (reals w) <= huge /\ Rabs (Rdot (reals row) (reals w)) <= 599 /\
      (INR (length row) + 2) * ulp1 * Rabsdot (reals row) (reals w) + INR (length row) * tiny <= e) M ->
  exists P, nb_predict_proba (Complement c) (ll M) = Ok P /\
    Forall2 (fun row p => accurate (2 * nb_error d dl K + 4 * e) p (softmax (map (fun w => Rdot (reals row) (reals w)) (d_log_prob c)))) M P.
Proof.
  intros m d dl e L c K M HA HL Hd Hdl He K2 LK L1 L3 N FW HM.
  destruct (proj1 (C25_complement m L c M N)) as [E _]; [lia|].
  set (b := map (fun _ => zero : F64 m) (d_log_prob c)).
  assert (LB : length b = length (d_log_prob c)) by apply map_length.
  assert (BZ : forall k (bk : F64 m), nth_error b k = Some bk -> bk = (B754_zero false : f64)).
  { intros k bk H. unfold b in H. rewrite nth_error_map' in H. destruct (nth_error (d_log_prob c) k); [|discriminate]. injection H as <-. reflexivity. }
  destruct (nb_end m d dl e L (Complement c) K M _ (map (fun row => map (fun w => Rdot (reals row) (reals w)) (d_log_prob c)) M) HA HL Hd Hdl He (le_S_n _ _ (le_S _ _ K2)) LK N E) as (P & EP & FP).
  - clear E N. induction HM as [|row M (FR & LR & HW) HM IH]; cbn [map]; constructor; [|exact IH].
    destruct (scores_close m (d_log_prob c) b row (map (fun w => dotp row w) (d_log_prob c)) e) as (R1 & R2 & R3); auto; try lra.
    + split; [exact FR|]. split; [exact LR|]. intros k w bk Hw Hb. apply BZ in Hb. subst bk. apply nth_error_In in Hw. split; [rewrite Forall_forall in FW; apply FW; exact Hw|].
      split; [reflexivity|]. unfold score_size, real. cbn [B2R]. rewrite Rabs_R0, Rplus_0_r. apply HW. exact Hw.
    + split; [apply map_length|]. intros k w bk Hw Hb. rewrite nth_error_map', Hw. unfold b in Hb. rewrite nth_error_map', Hw in Hb. injection Hb as <-. cbn [option_map]. f_equal. symmetry. apply dotp_zero.
    + intros k w bk Hw Hb. apply BZ in Hb. subst bk. apply nth_error_In in Hw. unfold exact_score, score_error, score_size, real. cbn [B2R]. rewrite Rabs_R0, !Rplus_0_r.
      destruct (HW w Hw) as (_ & A & B). split; [exact A|exact B].
    + split; [exact (eq_trans R2 L3)|]. split; [exact R1|].
      assert (X : exact_scores (d_log_prob c) b row = map (fun w => Rdot (reals row) (reals w)) (d_log_prob c)).
      { unfold exact_scores, b. clear. induction (d_log_prob c) as [|w W IH]; [reflexivity|]. cbn [map combine fst snd]. rewrite IH. f_equal.
        unfold exact_score, real. cbn [B2R zero]. change (B2R (zero : F64 m)) with 0. apply Rplus_0_r. }
      rewrite <- X. exact R3.
  - exists P. split; auto. apply Forall2_map_l in FP. exact FP.
Qed.
Print Assumptions C26_complement_end_float.
Example C26_complement_end_ex : exists P, nb_predict_proba (Complement (ex_nb crlibm)) (ll [[ofZ 2]]) = Ok P /\
  Forall2 (fun (row p : list (F64 crlibm)) => accurate (2 * nb_error u u 2 + 4 * / 8) p
     (softmax (map (fun w => Rdot (reals row) (reals w)) (d_log_prob (ex_nb crlibm))))) [[ofZ 2]] P.
Proof.
  pose proof ulp1_small. pose proof tiny_small. pose proof huge_large. pose proof u_le. pose proof u_pos.
  assert (FI : forall n, (Z.abs n <= 2 ^ 53)%Z -> is_finite (f_ofZE n 0) = true) by (intros; apply real_ofZ; auto).
  apply C26_complement_end_float; try reflexivity; try lra; try lia; [apply cr_exp_accurate|apply cr_log_accurate|discriminate| |].
  - repeat constructor; apply FI; cbn; lia.
  - constructor; [|constructor]. split; [repeat constructor; apply FI; cbn; lia|]. split; [cbn; lia|]. intros w Hw.
    cbn [ex_nb d_log_prob In] in Hw. repeat (destruct Hw as [<-|Hw]); [..|destruct Hw];
    (change (@ofZ (F64 crlibm)) with (fun n => f_ofZE n 0); cbv beta; ints; split; [|split; [apply Rabs_le|]]; lra).
Qed.
