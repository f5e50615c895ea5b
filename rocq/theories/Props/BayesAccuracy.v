(** Naive Bayes on doubles, from the rows to the probabilities. *)
From Coq Require Import String Reals Lia Lra List.
From Flocq Require Import Core BinarySingleNaN.
From Verif Require Import Model.Py Model.Arith Model.F64 Model.XR Model.Utils Model.Base Model.Linear Model.NaiveBayes.
From Verif Require Import Spec.Matrix Spec.Reals Spec.Linear Spec.Bayes Spec.Libm Spec.Rounding Spec.GaussErr.
From Verif Require Import Proofs.Lib Proofs.Laws Proofs.Round Proofs.Unit Proofs.Arrays Proofs.Arrays2 Proofs.CRLibm Proofs.RealLib Proofs.Argmax Proofs.Ensemble Proofs.Boosting Proofs.LinearProba Proofs.Bayes Proofs.SumErr Proofs.DotErr Proofs.NormErr Proofs.ExpErr Proofs.LseErr Proofs.BoostErr Proofs.GaussErr.
From Verif Require Import Props.Linear Props.Bayes Props.Accuracy Props.Probabilities.
Import ListNotations.
Local Open Scope R_scope.

(** Any naive Bayes model whose scores are computed up to [e]: its probabilities
    are the softmax of the exact scores. *)
Lemma nb_end : forall m d dl e (L : Type) (n : nb (F64 m) L) K (M J : list (list (F64 m))) (X : list (list R)),
  exp_accurate m d -> log_accurate m dl -> 0 <= d <= / 16 -> 0 <= dl <= / 4096 -> 0 <= e <= / 4 -> (1 <= K)%nat -> (Z.of_nat K <= 2 ^ 46)%Z ->
  M <> [] -> jll n (ll M) = Ok J ->
  Forall2 (fun (s : list (F64 m)) x => length s = K /\ in_range s /\ Forall2 (fun a t => Rabs (a - t) <= e) (reals s) x) J X ->
  exists P, nb_predict_proba n (ll M) = Ok P /\ Forall2 (fun x p => accurate (2 * nb_error d dl K + 4 * e) p (softmax x)) X P.
Proof.
  intros m d dl e L n K M J X HA HL Hd Hdl He K1 LK N E H.
  destruct (C26_accuracy_float m d dl L n M J HA HL Hd Hdl N E) as (Q & P & _ & EP & _ & FP).
  { clear - H K1 LK. induction H as [|s x J X (Ls & R & _) H IH]; constructor; auto. change (num (F64 m)) with f64 in *. split; [intros ->; cbn in Ls; lia|]. split; [rewrite Ls; auto|exact R]. }
  exists P. split; auto. clear E EP. revert P FP. induction H as [|s x J X (Ls & R & F) H IH]; intros P FP; inversion FP as [|? p ? P' (A & _) FP']; subst; constructor; [|apply IH; auto].
  change (num (F64 m)) with f64 in *. pose proof (softmax_lip _ _ e He F) as LP. eapply accurate_trans; [| |exact A|exact LP]; [|lra].
  unfold nb_error. pose proof (pos_INR (length s)). assert (0 < ulp1) by apply bpow_gt_0. assert (0 <= (6 * INR (length s) + 1364) * ulp1) by (apply Rmult_le_pos; lra). lra.
Qed.

(** C26.  MultinomialNB, end to end: the probabilities are the softmax of the exact
    scores row . w_k + log prior_k. *)
Theorem C26_multinomial_end_float : forall m d dl e (L : Type) (c : discrete (F64 m) L) K (M : list (list (F64 m))),
  exp_accurate m d -> log_accurate m dl -> 0 <= d <= / 16 -> 0 <= dl <= / 4096 -> 0 <= e <= / 4 -> (1 <= K)%nat -> (Z.of_nat K <= 2 ^ 46)%Z ->
  length (d_classes c) = K -> length (d_log_prior c) = K -> length (d_log_prob c) = K -> M <> [] ->
  Forall (well_sized (d_log_prob c) (d_log_prior c)) M -> Forall (scores_in_range (d_log_prob c) (d_log_prior c) e) M ->
  exists P, nb_predict_proba (Multinomial c) (ll M) = Ok P /\
    Forall2 (fun row p => accurate (2 * nb_error d dl K + 4 * e) p (softmax (exact_scores (d_log_prob c) (d_log_prior c) row))) M P.
Proof.
  intros m d dl e L c K M HA HL Hd Hdl He K1 LK L1 L2 L3 N W SR.
  destruct (C25_multinomial m L c K M L1 L2 L3 N) as (J & AF & E & _).
  destruct (nb_end m d dl e L (Multinomial c) K M J (map (exact_scores (d_log_prob c) (d_log_prior c)) M) HA HL Hd Hdl He K1 LK N E) as (P & EP & FP).
  - clear E N. induction AF as [|row s M J A AF IH]; constructor; [|apply IH; inversion W; inversion SR; auto].
    pose proof (Forall_inv W) as W1. pose proof (Forall_inv SR) as S1. destruct (scores_close m (d_log_prob c) (d_log_prior c) row s e) as (R1 & R2 & R3); auto; try lra; [exact (eq_trans L2 (eq_sym L3))|].
    split; [exact (eq_trans R2 L3)|]. split; auto.
  - exists P. split; auto. apply Forall2_map_l in FP. exact FP.
Qed.
Print Assumptions C26_multinomial_end_float.
Example C26_multinomial_end_ex : exists P, nb_predict_proba (Multinomial (ex_nb crlibm)) (ll [[ofZ 2]]) = Ok P /\
  Forall2 (fun (row p : list (F64 crlibm)) => accurate (2 * nb_error u u 2 + 4 * / 8) p (softmax (exact_scores (d_log_prob (ex_nb crlibm)) (d_log_prior (ex_nb crlibm)) row))) [[ofZ 2]] P.
Proof.
  pose proof ulp1_small. pose proof tiny_small. pose proof huge_large. pose proof u_le. pose proof u_pos.
  assert (FI : forall n, (Z.abs n <= 2 ^ 53)%Z -> is_finite (f_ofZE n 0) = true) by (intros; apply real_ofZ; auto).
  apply C26_multinomial_end_float; try reflexivity; try lra; try lia; [apply cr_exp_accurate|apply cr_log_accurate|discriminate| |].
  - constructor; [|constructor]. split; [repeat constructor; apply FI; cbn; lia|]. split; [cbn; lia|]. intros k w bk Hw Hb. cbn [ex_nb d_log_prob d_log_prior] in Hw, Hb.
    destruct k as [|[|k]]; cbn [nth_error] in Hw, Hb; [injection Hw as <-; injection Hb as <-..|destruct k; discriminate];
    (split; [repeat constructor; apply FI; cbn; lia|]; split; [apply FI; cbn; lia|]; change (@ofZ (F64 crlibm)) with (fun n => f_ofZE n 0); cbv beta; ints; lra).
  - constructor; [|constructor]. intros k w bk Hw Hb. cbn [ex_nb d_log_prob d_log_prior] in Hw, Hb.
    destruct k as [|[|k]]; cbn [nth_error] in Hw, Hb; [injection Hw as <-; injection Hb as <-..|destruct k; discriminate];
    (change (@ofZ (F64 crlibm)) with (fun n => f_ofZE n 0); cbv beta; ints; split; [apply Rabs_le|]; lra).
Qed.

(** C24.  GaussianNB on doubles: on tame models and rows the scores exist, are
    finite, and are the exact ones up to [gauss_error]. *)
Definition tame_rows {m : libm} {L} (g : gaussian (F64 m) L) (M : list (list (F64 m))) : Prop :=
  forall row k p sg th, In row M -> nth_error (g_prior g) k = Some p -> nth_error (g_sigma g) k = Some sg -> nth_error (g_theta g) k = Some th -> tame p sg th row.
Theorem C24_accuracy_float : forall (m : libm) dl (L : Type) (g : gaussian (F64 m) L) K (M : list (list (F64 m))),
  log_accurate m dl -> 0 <= dl <= / 4096 -> fitted_gaussian g K -> M <> [] -> tame_rows g M ->
  exists J, jll (Gaussian g) (ll M) = Ok J /\ rect J (length M) K /\
    forall i k row v p sg th, nth_error M i = Some row -> cell J i k = Some v ->
      nth_error (g_prior g) k = Some p -> nth_error (g_sigma g) k = Some sg -> nth_error (g_theta g) k = Some th ->
      is_finite (v : f64) = true /\ Rabs (real v - exact_gauss p sg th row) <= gauss_error dl p sg th row.
Proof.
  intros m dl L g K M HL Hdl F N T. assert (FG := F). destruct FG as (K1 & LC & LP & LS & LT).
  assert (GET : forall k, (k < K)%nat -> exists p sg th, nth_error (g_prior g) k = Some p /\ nth_error (g_sigma g) k = Some sg /\ nth_error (g_theta g) k = Some th).
  { intros k Hk. destruct (lnth_lt (g_prior g) k) as (p & _ & Hp); [lia|]. destruct (lnth_lt (g_sigma g) k) as (sg & _ & Hs); [lia|]. destruct (lnth_lt (g_theta g) k) as (th & _ & Ht); [lia|]. eauto 7. }
  destruct M as [|r0 M0] eqn:EM; [congruence|]. rewrite <- EM in *. assert (I0 : In r0 M) by (rewrite EM; left; auto). destruct (GET 0%nat K1) as (p0 & sg0 & th0 & Hp0 & Hs0 & Ht0).
  assert (LR : forall row, In row M -> length row = length r0).
  { intros row Hr. destruct (T row 0%nat p0 sg0 th0 Hr Hp0 Hs0 Ht0) as (_ & _ & Q & _). destruct (T r0 0%nat p0 sg0 th0 I0 Hp0 Hs0 Ht0) as (_ & _ & Q' & _). exact (eq_trans (eq_sym Q) Q'). }
  assert (EJ : exists J, jll (Gaussian g) (ll M) = Ok J).
  { destruct (C24_partial m L g K (length r0) M (length M) F) as (out & E & _).
    - split; auto. apply Forall_forall. intros sg Hi. apply In_nth_error in Hi. destruct Hi as [k Hk]. destruct (GET k) as (p & sg' & th & Hp & Hs & Ht); [apply nth_error_lt in Hk; rewrite <- LS; exact Hk|].
      pose proof (eq_trans (eq_sym Hs) Hk) as Q. injection Q as ->. destruct (T r0 k p sg th I0 Hp Hs Ht) as (_ & _ & Q & _). exact Q.
    - split; auto. apply Forall_forall. intros th Hi. apply In_nth_error in Hi. destruct Hi as [k Hk]. destruct (GET k) as (p & sg & th' & Hp & Hs & Ht); [apply nth_error_lt in Hk; rewrite <- LT; exact Hk|].
      pose proof (eq_trans (eq_sym Ht) Hk) as Q. injection Q as ->. destruct (T r0 k p sg th I0 Hp Hs Ht) as (_ & _ & _ & Q & _). exact Q.
    - split; auto. apply Forall_forall. exact LR.
    - rewrite EM. cbn. lia.
    - apply Forall_forall. intros sg Hi. apply In_nth_error in Hi. destruct Hi as [k Hk]. destruct (GET k) as (p & sg' & th & Hp & Hs & Ht); [apply nth_error_lt in Hk; rewrite <- LS; exact Hk|].
      pose proof (eq_trans (eq_sym Hs) Hk) as Q. injection Q as ->. destruct (T r0 k p sg th I0 Hp Hs Ht) as (_ & _ & _ & _ & _ & Q & _).
      eapply Forall_impl; [|exact Q]. cbn beta. intros s [Fs [Bs _]]. pose proof (bpow_gt_0 radix2 (-390)). change (f_eqb s (f_ofZE 0 0) = false). rewrite f_eqb_x, b2x_zero, (b2x_fin s Fs). cbn [x_eqb]. fold (real s). apply Reqb_neq. lra.
    - intros row th j x t Hr Hi Hx Hy. apply In_nth_error in Hi. destruct Hi as [k Hk]. destruct (GET k) as (p & sg & th' & Hp & Hs & Ht); [apply nth_error_lt in Hk; rewrite <- LT; exact Hk|].
      pose proof (eq_trans (eq_sym Ht) Hk) as Q. injection Q as ->. destruct (T row k p sg th Hr Hp Hs Ht) as (_ & _ & _ & _ & _ & _ & Q). rewrite Forall_app, !Forall_forall in Q. destruct Q as [Q1 Q2].
      apply nth_error_In in Hx, Hy. destruct (Q1 t Hy) as [Ft Bt]. destruct (Q2 x Hx) as [Fx Bx].
      assert (B1 : bpow radix2 191 = bpow radix2 190 + bpow radix2 190) by (change 191%Z with (1 + 190)%Z; rewrite bpow_plus; change (bpow radix2 1) with 2; ring). assert (B2 : 4 * bpow radix2 191 <= bpow radix2 1020) by (change 4 with (bpow radix2 2); rewrite <- bpow_plus; apply bpow_le; lia).
      pose proof u_le as U1. pose proof u_pos as U0. pose proof (Rabs_pos (real x)). pose proof (Rabs_pos (real t)). pose proof (bpow_gt_0 radix2 191).
      destruct (sub_fits x t Fx Ft) as (Fd & d1 & Hd1 & R1); [nra|]. 
      change (f_leb (f_abs (f_sub x t)) (f_ofZE 1 511) = true).
      assert (VP : is_finite (f_ofZE 1 511) = true /\ real (f_ofZE 1 511) = bpow radix2 511).
      { assert (Q : B2SF (f_ofZE 1 511) = SpecFloat.S754_finite false 4503599627370496 459) by (vm_compute; reflexivity). destruct (real_SF _ _ _ _ Q) as [FF V]. split; auto. rewrite V. change (IZR 4503599627370496) with (bpow radix2 52). rewrite <- bpow_plus. reflexivity. }
      destruct VP as [FP VP]. assert (FB : is_finite (f_abs (f_sub x t)) = true) by (unfold f_abs; rewrite is_finite_Babs; exact Fd).
      rewrite f_leb_x, (b2x_fin _ FB), (b2x_fin _ FP). cbn [x_leb]. apply Rleb_le. fold (real (f_ofZE 1 511)). rewrite VP. unfold f_abs. rewrite B2R_Babs. fold (real (f_sub x t)). rewrite R1, Rabs_mult.
      assert (Rabs (real x - real t) <= bpow radix2 191) by (eapply Rle_trans; [apply Rabs_triang|rewrite Rabs_Ropp; lra]). assert (Rabs (1 + d1) <= 2) by (apply Rabs_le_inv in Hd1; apply Rabs_le; lra).
      apply Rle_trans with (bpow radix2 191 * 2); [apply Rmult_le_compat; auto using Rabs_pos|]. change 2 with (bpow radix2 1). rewrite <- bpow_plus. apply bpow_le. lia.
    - unfold nb_predict in E. assert (C : check_array (ll M) HError = Ok (ll M)) by (rewrite EM; reflexivity). rewrite C in E. cbn [bind] in E. destruct (jll (Gaussian g) (ll M)) as [J|]; [eauto|discriminate]. }
  destruct EJ as [J EJ]. exists J. split; auto. destruct (proj1 (proj1 (C24_scores m L g K M F N) J) EJ) as [RJ HJ]. split; auto.
  intros i k row v p sg th Hi Hv Hp Hs Ht. apply (gauss_cell m); auto; [|apply (HJ i k); auto]. apply nth_error_In in Hi. apply (T row k); auto.
Qed.
Print Assumptions C24_accuracy_float.

(** The label, when the exact scores separate the classes by more than their
    rounding errors. *)
Theorem C24_margin_float : forall (m : libm) dl (L : Type) (g : gaussian (F64 m) L) K (M : list (list (F64 m))),
  log_accurate m dl -> 0 <= dl <= / 4096 -> fitted_gaussian g K -> M <> [] -> tame_rows g M ->
  exists out, nb_predict (Gaussian g) (ll M) = Ok out /\
    Forall2 (fun row y => forall k, gauss_winner dl (g_prior g) (g_sigma g) (g_theta g) row k -> nth_error (g_classes g) k = Some y) M out.
Proof.
  intros m dl L g K M HL Hdl F N T. destruct (C24_accuracy_float m dl L g K M HL Hdl F N T) as (J & EJ & RJ & HJ). assert (FG := F). destruct FG as (K1 & LC & LP & LS & LT).
  destruct (proj2 (C24_scores m L g K M F N) J EJ) as [D _].
  assert (EO : exists out, nb_predict (Gaussian g) (ll M) = Ok out).
  { unfold nb_predict. assert (C : check_array (ll M) HError = Ok (ll M)) by (destruct M; [congruence|reflexivity]). rewrite C. cbn [bind]. rewrite EJ. cbn [bind]. apply mapM_total. intros s Hs.
    assert (Ls : length s = K) by (eapply rect_row; [exact RJ|auto]). destruct (argmax_total (F64_ord m) s) as [k Ek]; [intros ->; cbn in Ls; lia|]. rewrite Ek. cbn [bind]. apply (argmax_iff (F64_ord m)) in Ek. apply best_lt in Ek. destruct (lnth_lt (nb_classes (Gaussian g)) k) as (y & Ey & _); [cbn [nb_classes]; lia|eauto]. }
  destruct EO as [out EO]. exists out. split; auto. pose proof (proj1 (D out) EO) as FO. destruct RJ as [RJ RR].
  apply Forall2_nth_error in FO. destruct FO as [LO FO]. apply Forall2_nth_error. split; [exact (eq_trans (eq_sym RJ) LO)|].
  intros i row y Hi Hy k (p & sg & th & Hp & Hs & Ht & W).
  assert (HS : exists s, nth_error J i = Some s) by (destruct (nth_error J i) eqn:Q; eauto; apply nth_error_None in Q; apply nth_error_lt in Hi; change (num (F64 m)) with f64 in *; lia). destruct HS as [s HS].
  destruct (FO i s y HS Hy) as (k' & B & Hk'). destruct (Nat.eq_dec k' k) as [->|NE]; auto. exfalso.
  assert (Ls : length s = K) by (rewrite Forall_forall in RR; apply RR; eapply nth_error_In; eauto).
  assert (HV : exists vk, nth_error s k = Some vk) by (destruct (nth_error s k) eqn:Q; eauto; apply nth_error_None in Q; apply nth_error_lt in Hp; change (num (F64 m)) with f64 in *; lia). destruct HV as [vk Hvk].
  destruct (HJ i k row vk p sg th Hi ltac:(unfold cell; rewrite HS; exact Hvk) Hp Hs Ht) as [Fk Ek].
  assert (HB : exists v, nth_error s k' = Some v /\ (isnan v = true \/ forall j w, nth_error s j = Some w -> ltb v w = false)).
  { destruct B as [(v & t & -> & Nv & ->)|(h & t & v & _ & _ & Hv & _ & B & _)]; exists v; auto. }
  destruct HB as (v & Hv & B1). assert (LK : (k' < K)%nat) by (apply nth_error_lt in Hv; rewrite <- Ls; exact Hv).
  destruct (lnth_lt (g_prior g) k') as (p' & _ & Hp'); [lia|]. destruct (lnth_lt (g_sigma g) k') as (sg' & _ & Hs'); [lia|]. destruct (lnth_lt (g_theta g) k') as (th' & _ & Ht'); [lia|].
  destruct (HJ i k' row v p' sg' th' Hi ltac:(unfold cell; rewrite HS; exact Hv) Hp' Hs' Ht') as [F' E'].
  specialize (W k' p' sg' th' NE Hp' Hs' Ht'). apply Rabs_le_inv in Ek, E'. destruct (fin_lt v vk F' Fk ltac:(lra)) as [Q _].
  destruct B1 as [B1|B1]; [destruct v; discriminate|]. specialize (B1 k vk Hvk). change (f_ltb v vk = false) in B1. congruence.
Qed.
Print Assumptions C24_margin_float.

(** C26.  GaussianNB, end to end: the probabilities are the softmax of the exact
    scores, when these are at most 599 in size and their errors at most [e]. *)
Theorem C26_gaussian_end_float : forall m d dl e (L : Type) (g : gaussian (F64 m) L) K (M : list (list (F64 m))),
  exp_accurate m d -> log_accurate m dl -> 0 <= d <= / 16 -> 0 <= dl <= / 4096 -> 0 <= e <= / 4 -> (Z.of_nat K <= 2 ^ 46)%Z ->
  fitted_gaussian g K -> M <> [] -> tame_rows g M ->
  (forall row k p sg th, In row M -> nth_error (g_prior g) k = Some p -> nth_error (g_sigma g) k = Some sg -> nth_error (g_theta g) k = Some th ->
     Rabs (exact_gauss p sg th row) <= 599 /\ gauss_error dl p sg th row <= e) ->
  exists P, nb_predict_proba (Gaussian g) (ll M) = Ok P /\
    Forall2 (fun row p => accurate (2 * nb_error d dl K + 4 * e) p (softmax (exact_gausses (g_prior g) (g_sigma g) (g_theta g) row))) M P.
Proof.
  intros m d dl e L g K M HA HL Hd Hdl He LK F N T HB. destruct (C24_accuracy_float m dl L g K M HL Hdl F N T) as (J & EJ & [RJ RR] & HJ). assert (FG := F). destruct FG as (K1 & LC & LP & LS & LT).
  destruct (nb_end m d dl e L (Gaussian g) K M J (map (exact_gausses (g_prior g) (g_sigma g) (g_theta g)) M) HA HL Hd Hdl He K1 LK N EJ) as (P & EP & FP).
  - apply Forall2_map_r. apply Forall2_nth_error. split; [exact RJ|]. intros i s row HS Hi. assert (Ls : length s = K) by (rewrite Forall_forall in RR; apply RR; eapply nth_error_In; eauto). split; auto.
    assert (CL : forall k v p sg th, nth_error s k = Some v -> nth_error (g_prior g) k = Some p -> nth_error (g_sigma g) k = Some sg -> nth_error (g_theta g) k = Some th ->
      is_finite (v : f64) = true /\ Rabs (real v) <= 600 /\ Rabs (real v - exact_gauss p sg th row) <= e).
    { intros k v p sg th Hv Hp Hs Ht. destruct (HJ i k row v p sg th Hi ltac:(unfold cell; rewrite HS; exact Hv) Hp Hs Ht) as [Fv Ev].
      destruct (HB row k p sg th (nth_error_In _ _ Hi) Hp Hs Ht) as [B1 B2]. split; auto. apply Rabs_le_inv in B1, Ev. split; apply Rabs_le; lra. }
    assert (GET : forall k v, nth_error s k = Some v -> exists p sg th, nth_error (g_prior g) k = Some p /\ nth_error (g_sigma g) k = Some sg /\ nth_error (g_theta g) k = Some th).
    { intros k v Hv. assert (Hk : (k < K)%nat) by (apply nth_error_lt in Hv; rewrite <- Ls; exact Hv). destruct (lnth_lt (g_prior g) k) as (p & _ & Hp); [lia|]. destruct (lnth_lt (g_sigma g) k) as (sg & _ & Hs); [lia|]. destruct (lnth_lt (g_theta g) k) as (th & _ & Ht); [lia|]. eauto 7. }
    split.
    + apply Forall_forall. intros v Hv. apply In_nth_error in Hv. destruct Hv as [k Hv]. destruct (GET k v Hv) as (p & sg & th & Hp & Hs & Ht). destruct (CL k v p sg th Hv Hp Hs Ht) as (Q1 & Q2 & _). split; auto.
    + unfold reals. apply Forall2_map_l. unfold exact_gausses. apply Forall2_map_r. apply Forall2_nth_error. split; [rewrite !combine_length; change (num (F64 m)) with f64 in *; lia|].
      intros k v [p [sg th]] Hv Hc. rewrite !nth_error_combine in Hc. 
      match type of Hc with context [match ?z with Some _ => _ | None => None end = _] => destruct z as [p'|] eqn:Hp; [|discriminate Hc] end.
      match type of Hc with context [match match ?z with Some _ => _ | None => _ end with Some _ => _ | None => _ end] => destruct z as [sg'|] eqn:Hs; [|discriminate Hc] end.
      match type of Hc with context [match match ?z with Some _ => _ | None => _ end with Some _ => _ | None => _ end] => destruct z as [th'|] eqn:Ht; [|discriminate Hc] end.
      injection Hc as -> -> ->. cbn [fst snd]. destruct (CL k v p sg th Hv Hp Hs Ht) as (_ & _ & Q). exact Q.
  - exists P. split; auto. apply Forall2_map_l in FP. exact FP.
Qed.
Print Assumptions C26_gaussian_end_float.

(** A model with two classes and a row that meet all of this. *)
Example C24_accuracy_ex : forall m : libm, fitted_gaussian (gauss1 (A:=F64 m)) 2 /\ tame_rows (gauss1 (A:=F64 m)) [[ofZ 3]] /\
  (forall row k p sg th, In row [[ofZ 3 : F64 m]] -> nth_error (g_prior (gauss1 (A:=F64 m))) k = Some p -> nth_error (g_sigma (gauss1 (A:=F64 m))) k = Some sg -> nth_error (g_theta (gauss1 (A:=F64 m))) k = Some th ->
     Rabs (exact_gauss p sg th row) <= 599 /\ gauss_error u p sg th row <= / 8) /\
  gauss_winner u (g_prior (gauss1 (A:=F64 m))) (g_sigma (gauss1 (A:=F64 m))) (g_theta (gauss1 (A:=F64 m))) [ofZ 3 : F64 m] 1.
Proof.
  intro m. pose proof ulp_small as US. pose proof u_le as U1. pose proof u_pos as U0.
  assert (F3 := real_ofZ 3 ltac:(cbn; lia)). assert (F1 := real_ofZ 1 ltac:(cbn; lia)). assert (F0 := real_ofZ 0 ltac:(cbn; lia)). destruct F3 as [R3 F3]. destruct F1 as [R1 F1]. destruct F0 as [R0 F0].
  assert (B390 : bpow radix2 (-390) <= 1) by (change 1 with (bpow radix2 0); apply bpow_le; lia). assert (B39 : 1 <= bpow radix2 390) by (change 1 with (bpow radix2 0); apply bpow_le; lia).
  assert (B19 : 4 <= bpow radix2 190) by (change 4 with (bpow radix2 2); apply bpow_le; lia).
  assert (TM : forall t : f64, is_finite t = true -> 0 <= real t <= 1 -> tame (f_ofZE 1 0) [f_ofZE 1 0] [t] [f_ofZE 3 0]).
  { intros t Ft Bt. split; auto. split; [rewrite R1; lra|]. split; auto. split; auto. split; [cbn; lia|]. split; [constructor; [|constructor]; rewrite R1; split; auto; lra|].
    constructor; [split; auto; rewrite Rabs_pos_eq; lra|]. constructor; [|constructor]. split; auto. rewrite R3, Rabs_pos_eq; lra. }
  set (lg := ln (2 * pi64)). assert (LG : 0 <= lg <= 8).
  { pose proof pi64_range. unfold lg. split; [rewrite <- ln_1; apply ln_le; lra|]. pose proof (exp_ineq1_le 8). rewrite <- (ln_exp 8). apply ln_le; lra. }
  assert (EX : forall t : f64, exact_gauss (f_ofZE 1 0) [f_ofZE 1 0] [t] [f_ofZE 3 0] = - / 2 * lg - / 2 * ((3 - real t) * (3 - real t))).
  { intro t. unfold exact_gauss, Rgauss, Rsq_dists, reals. cbn [map combine fst snd Rsum]. rewrite R1, R3, ln_1, Rmult_1_r. fold lg. field. }
  assert (GE : forall t : f64, 0 <= real t <= 1 -> gauss_error u (f_ofZE 1 0) [f_ofZE 1 0] [t] [f_ofZE 3 0] <= / 8).
  { intros t Bt. unfold gauss_error, gauss_size, Rsq_dists, reals. cbn [map combine fst snd Rsum length INR]. rewrite R1, R3, ln_1, Rabs_R0, !Rmult_1_r. fold lg. rewrite (Rabs_pos_eq lg) by lra.
    assert (0 <= (3 - real t) * (3 - real t) / 1 <= 9) by (unfold Rdiv; rewrite Rinv_1; nra). set (q := (3 - real t) * (3 - real t) / 1) in *.
    assert (0 <= 0 + / 2 * (lg + 0) + / 2 * (q + 0) <= 9) by lra. rewrite ulp1_u in *. nra. }
  split; [apply C24_ex_fitted|]. split; [|split].
  - intros row k p sg th [<-|[]] Hp Hs Ht. destruct k as [|[|[|k]]]; try discriminate Hp; injection Hp as <-; injection Hs as <-; injection Ht as <-; apply TM; auto; [change (0 <= real (f_ofZE 0 0) <= 1)|change (0 <= real (f_ofZE 1 0) <= 1)]; lra.
  - intros row k p sg th [<-|[]] Hp Hs Ht. destruct k as [|[|[|k]]]; try discriminate Hp; injection Hp as <-; injection Hs as <-; injection Ht as <-.
    + split; [|apply (GE (f_ofZE 0 0)); lra]. pose proof (EX (f_ofZE 0 0)) as Q. rewrite R0 in Q. assert (B : Rabs (exact_gauss (f_ofZE 1 0) [f_ofZE 1 0] [f_ofZE 0 0] [f_ofZE 3 0]) <= 599) by (rewrite Q; apply Rabs_le; lra). exact B.
    + split; [|apply (GE (f_ofZE 1 0)); lra]. pose proof (EX (f_ofZE 1 0)) as Q. rewrite R1 in Q. assert (B : Rabs (exact_gauss (f_ofZE 1 0) [f_ofZE 1 0] [f_ofZE 1 0] [f_ofZE 3 0]) <= 599) by (rewrite Q; apply Rabs_le; lra). exact B.
  - exists (f_ofZE 1 0), [f_ofZE 1 0], [f_ofZE 1 0]. split; auto. split; auto. split; auto. intros j p' sg' th' NJ Hp Hs Ht. destruct j as [|[|[|j]]]; try discriminate Hp; [|congruence].
    injection Hp as <-. injection Hs as <-. injection Ht as <-. pose proof (EX (f_ofZE 0 0)) as Q0. pose proof (EX (f_ofZE 1 0)) as Q1. rewrite R0 in Q0. rewrite R1 in Q1.
    pose proof (GE (f_ofZE 0 0) ltac:(lra)) as G0. pose proof (GE (f_ofZE 1 0) ltac:(lra)) as G1. change (num (F64 m)) with f64 in *. change (@ofZ (F64 m) 3) with (f_ofZE 3 0). change (@one (F64 m)) with (f_ofZE 1 0). change (@zero (F64 m)) with (f_ofZE 0 0). lra.
Qed.
