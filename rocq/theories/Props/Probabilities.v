(** Accuracy of the probabilities computed as doubles: how far they are from the
    softmax or logistic values of the exact scores, given the accuracy of the C
    library's exp and log.  ([d] = 2^-53 for correctly rounded functions, see the
    examples.) *)
From Coq Require Import String Reals Lia Lra List.
From Flocq Require Import Core BinarySingleNaN.
From Verif Require Import Model.Py Model.Arith Model.F64 Model.XR Model.Utils Model.Base Model.Tree Model.Ensemble Model.Xgb Model.Linear Model.NaiveBayes Model.FastText.
From Verif Require Import Spec.Matrix Spec.Reals Spec.Linear Spec.Bayes Spec.Trees Spec.Xgb Spec.FastText Spec.Libm Spec.Rounding.
From Verif Require Import Proofs.Lib Proofs.Laws Proofs.Round Proofs.Unit Proofs.Arrays Proofs.Arrays2 Proofs.CRLibm Proofs.RealLib Proofs.LinearProba Proofs.Ensemble Proofs.Boosting Proofs.Bayes Proofs.SumErr Proofs.DotErr Proofs.NormErr Proofs.ExpErr Proofs.LseErr.
From Verif Require Import Props.Linear Props.Bayes Props.Xgb Props.Accuracy.
Import ListNotations.
Local Open Scope R_scope.

(** The correctly rounded exp and log are accurate. *)
Lemma eta_tiny : eta <= tiny. Proof. apply bpow_le. lia. Qed.
Lemma rnd_close : forall r, Rabs (rnd r - r) <= u * Rabs r + tiny.
Proof.
  intro r. destruct (rnd_err r) as (d & e & Hd & He & ->). replace (r * (1 + d) + e - r) with (r * d + e) by ring. eapply Rle_trans; [apply Rabs_triang|].
  rewrite Rabs_mult, (Rmult_comm (Rabs r)). pose proof eta_tiny. assert (Rabs d * Rabs r <= u * Rabs r) by (apply Rmult_le_compat_r; auto using Rabs_pos). lra.
Qed.
Lemma cr_exp_accurate : exp_accurate crlibm u.
Proof.
  intros x Fx Hx. assert (B : rnd (exp (B2R x)) < maxb).
  { apply Rle_lt_trans with (rnd (bpow radix2 960)); [apply rnd_mono; eapply Rle_trans; [apply (exp_le _ 600); exact Hx|apply exp600]|].
    rewrite rnd_gen; [apply bpow_lt; lia|]. apply generic_format_bpow. unfold SpecFloat.fexp, SpecFloat.emin. lia. }
  destruct (cr_exp_some x B) as (y & E & F & V). exists y. split; auto. split; auto. rewrite V. split; [apply rnd_exp_pos|].
  pose proof (rnd_close (exp (B2R x))) as Q. rewrite (Rabs_pos_eq (exp (B2R x))) in Q by (left; apply exp_pos). exact Q.
Qed.
Lemma cr_log_accurate : log_accurate crlibm u.
Proof.
  intros x Fx Hx. split; [apply cr_log_finite; auto|]. cbn [m_log crlibm].
  rewrite (proj2 (of_real_ok (ln (B2R x)) (log_fits x Fx Hx))). apply rnd_close.
Qed.

Lemma to_accurate : forall e (q : list R) (p : list f64), Forall2 (fun x (v : f64) => is_finite v = true /\ Rabs (real v - x) <= e * x + eta) q p -> accurate e p q.
Proof. intros e q p H. pose proof eta_tiny. induction H as [|x v q p [F B] H IH]; constructor; [|apply IH]. split; auto. lra. Qed.
Lemma accurate_trans : forall e f p q q', 0 <= e -> 0 <= f <= 1 -> accurate e p q -> Forall2 (fun a b => 0 <= b /\ Rabs (a - b) <= f * b) q q' -> accurate (2 * e + f) p q'.
Proof.
  intros e f p q q' He Hf H. revert q'. induction H as [|v a p q [F B] H IH]; intros q' H'; inversion H' as [|? b ? q2 [B0 B1] H2]; subst; constructor; [|apply IH; auto].
  split; auto. replace (real v - b) with ((real v - a) + (a - b)) by ring. eapply Rle_trans; [apply Rabs_triang|].
  apply Rabs_le_inv in B1. assert (a <= 2 * b) by nra. assert (e * a <= e * (2 * b)) by (apply Rmult_le_compat_l; auto). assert (Rabs (a - b) <= f * b) by (apply Rabs_le; lra). lra.
Qed.
Lemma accurate_le : forall e f p q, e <= f -> Forall (fun x => 0 <= x) q -> accurate e p q -> accurate f p q.
Proof. intros e f p q H N A. induction A as [|v x p q [F B] A IH]; inversion N; subst; constructor; [|apply IH; auto]. split; auto. assert (e * x <= f * x) by (apply Rmult_le_compat_r; auto). lra. Qed.
Lemma softmax_pos : forall l, Forall (fun x => 0 <= x) (softmax l).
Proof.
  intros [|x l]; [constructor|]. unfold softmax. apply Forall_map, Forall_forall. intros y _. left. apply Rdiv_lt_0_compat; [apply exp_pos|]. apply Rsum_pos_lt; [discriminate|]. apply Forall_map, Forall_forall. intros. apply exp_pos.
Qed.

(** C06.  Softmax, total and accurate for scores between -600 and 600. *)
Theorem C06_accuracy_float : forall m d (l : list (F64 m)), exp_accurate m d -> 0 <= d <= / 16 -> l <> [] -> (Z.of_nat (length l) <= 2 ^ 48)%Z -> in_range l ->
  exists p, sfmax l = Ok p /\ accurate (3 * d + (3 * INR (length l) + 3) * ulp1) p (softmax (reals l)).
Proof. intros m d l HA Hd N L H. destruct (softmax_err m d l HA Hd N L H) as (p & E & F). exists p. split; auto. apply to_accurate. exact F. Qed.
Print Assumptions C06_accuracy_float.

(** C58.  The fastText softmax: any finite scores of moderate exponent. *)
Theorem C58_accuracy_float : forall m d (l : list (F64 m)), exp_accurate m d -> 0 <= d -> l <> [] -> (Z.of_nat (length l) <= 2 ^ 47)%Z -> INR (length l) * d <= / 8 ->
  Forall (fun x : f64 => is_finite x = true /\ Rabs (real x) <= huge) l ->
  exists p, ft_sfmax l = Ok p /\ within (4 * (INR (length l) * d) + (11 * INR (length l) + 2) * ulp1) p (softmax (reals l)).
Proof.
  intros m d l HA Hd N L Hnd H. destruct (ft_softmax_err m d l HA Hd N L Hnd H) as (p & E & F). exists p. split; auto.
  unfold within. clear - F. revert F. generalize (4 * (INR (length l) * d) + (11 * INR (length l) + 2) * ulp1) (softmax (reals l)). intros e q F. induction F; constructor; auto.
Qed.
Print Assumptions C58_accuracy_float.

(** C26.  Naive Bayes: probabilities and log-probabilities, for scores between
    -600 and 600.  The exact sum of a row is 1 up to the same error. *)
Definition nb_error (d dl : R) (K : nat) : R := 6 * d + 1514 * dl + (6 * INR K + 1364) * ulp1.
Definition nb_log_error (d dl : R) (K : nat) : R := 2 * d + 757 * dl + (3 * INR K + 682) * ulp1.
Lemma accurate_sum : forall e p q, accurate e p q -> Rsum q = 1 -> Rabs (Rsum (reals p) - 1) <= e + INR (length q) * tiny.
Proof.
  intros e p q H S. assert (G : Rabs (Rsum (reals p) - Rsum q) <= e * Rsum q + INR (length q) * tiny).
  { clear S. unfold reals. induction H as [|v x p q [F B] H IH]; cbn [map Rsum length]; [cbn [INR]; rewrite Rmult_0_r, Rmult_0_l, Rminus_0_r, Rabs_R0; lra|]. rewrite S_INR.
    replace (real v + Rsum (map real p) - (x + Rsum q)) with ((real v - x) + (Rsum (map real p) - Rsum q)) by ring. eapply Rle_trans; [apply Rabs_triang|]. lra. }
  rewrite S, Rmult_1_r in G. exact G.
Qed.
Lemma log_row : forall m d dl (s : list (F64 m)), exp_accurate m d -> log_accurate m dl -> 0 <= d <= / 16 -> 0 <= dl <= / 4096 -> s <> [] -> (Z.of_nat (length s) <= 2 ^ 46)%Z -> in_range s ->
  exists z : f64, logsumexp s = Ok z /\ within (nb_log_error d dl (length s)) (map (fun v : F64 m => @sub (F64 m) v z) s) (map ln (softmax (reals s))) /\
    exists p : list f64, mapM (fun v : F64 m => safe_exp (@sub (F64 m) v z)) s = Ok p /\ Forall (fun v => 0 <= real v) p /\ accurate (nb_error d dl (length s)) p (softmax (reals s)).
Proof.
  intros m d dl s HA HL Hd Hdl N L H. destruct (lse_err m d dl s HA HL Hd Hdl N ltac:(lia) H) as (z & Ez & Fz & Bz & Dz). exists z. split; auto.
  assert (S0 : Rsum (map exp (reals s)) > 0) by (apply Rsum_pos_lt; [destruct s; [congruence|discriminate]|apply Forall_map, Forall_forall; intros; apply exp_pos]).
  assert (IN : forall x : f64, In x s -> is_finite x = true /\ Rabs (real x) <= 600) by (intros x Hx; unfold in_range in H; rewrite Forall_forall in H; apply H; auto).
  split.
  - unfold within, softmax. rewrite map_map. unfold reals at 2. rewrite map_map. apply Forall2_map_l, Forall2_map_r. apply Forall2_diag. intros x Hx. destruct (IN x Hx) as [Fx Bx].
    apply (logproba_err m d dl s z x); auto. lia.
  - assert (X : forall t : list f64, (forall x, In x t -> In x s) -> exists p : list f64, mapM (fun v : F64 m => safe_exp (@sub (F64 m) v z)) t = Ok p /\ Forall (fun v => 0 <= real v) p /\
       accurate (nb_error d dl (length s)) p (map (fun x => exp (real x) / Rsum (map exp (reals s))) t)).
    { induction t as [|x t IH]; intro Ht; [exists []; repeat constructor|]. destruct IH as (p & E & P0 & A); [intros y Hy; apply Ht; right; auto|].
      assert (Hx : In x s) by (apply Ht; left; auto). destruct (IN x Hx) as [Fx Bx].
      destruct (log_space_err m d dl s z x HA Hd Hdl N L Fz Bz Dz Fx Bx) as (q & Eq & Fq & Pq & Bq); [unfold reals; apply in_map; auto|].
      exists (q :: p). cbn [mapM]. rewrite Eq. cbn [bind]. rewrite E. split; auto. split; constructor; auto. }
    destruct (X s ltac:(auto)) as (p & E & P0 & A). exists p. split; auto. split; auto. unfold softmax. unfold reals at 2. rewrite map_map. exact A.
Qed.
Theorem C26_accuracy_float : forall m d dl (L : Type) (n : nb (F64 m) L) (M J : list (list (F64 m))),
  exp_accurate m d -> log_accurate m dl -> 0 <= d <= / 16 -> 0 <= dl <= / 4096 ->
  M <> [] -> jll n (ll M) = Ok J -> Forall (fun s : list (F64 m) => s <> [] /\ (Z.of_nat (length s) <= 2 ^ 46)%Z /\ in_range s) J ->
  exists Q P, nb_predict_log_proba n (ll M) = Ok Q /\ nb_predict_proba n (ll M) = Ok P /\
    Forall2 (fun s q => within (nb_log_error d dl (length s)) q (map ln (softmax (reals s)))) J Q /\
    Forall2 (fun s p => accurate (nb_error d dl (length s)) p (softmax (reals s)) /\ Forall (fun v => 0 <= real v) p /\
                        Rabs (Rsum (reals p) - 1) <= nb_error d dl (length s) + INR (length s) * tiny) J P.
Proof.
  intros m d dl L n M J HA HL Hd Hdl N E H.
  assert (X : exists Q P, Forall2 (fun (s q : list (F64 m)) => exists z, log_sum_exp s z /\ q = map (fun v => sub v z) s) J Q /\ mapM (mapM safe_exp) Q = Ok P /\
     Forall2 (fun s q => within (nb_log_error d dl (length s)) q (map ln (softmax (reals s)))) J Q /\
     Forall2 (fun s p => accurate (nb_error d dl (length s)) p (softmax (reals s)) /\ Forall (fun v => 0 <= real v) p /\ Rabs (Rsum (reals p) - 1) <= nb_error d dl (length s) + INR (length s) * tiny) J P).
  { clear E. induction H as [|s J (Ns & Ls & Rs) H (Q & P & F1 & E1 & F2 & F3)]; [exists [], []; repeat constructor|].
    destruct (log_row m d dl s HA HL Hd Hdl Ns Ls Rs) as (z & Ez & W & p & Ep & P0 & A).
    exists (map (fun v : F64 m => @sub (F64 m) v z) s :: Q), (p :: P). split; [constructor; auto; exists z; split; auto; apply logsumexp_ok; auto|].
    split; [cbn [mapM]; rewrite mapM_map; rewrite Ep; cbn [bind]; rewrite E1; reflexivity|]. split; constructor; auto. split; auto. split; auto.
    assert (LQ : length (softmax (reals s)) = length s) by (unfold softmax, reals; rewrite !map_length; reflexivity).
    pose proof (accurate_sum _ p (softmax (reals s)) A) as Q1. rewrite LQ in Q1. apply Q1.
    apply softmax_dist. destruct s; [congruence|discriminate]. }
  destruct X as (Q & P & F1 & E1 & F2 & F3). exists Q, P. apply (nb_log_proba_ok n M J N E) in F1. split; auto. split; [|split; auto].
  unfold nb_predict_proba. rewrite F1. exact E1.
Qed.
Print Assumptions C26_accuracy_float.

(** C20.  Linear classifiers, from the exact scores to the computed
    probabilities. *)
Lemma nth_combine : forall (A B : Type) (l : list A) (l' : list B) k p, nth_error (combine l l') k = Some p -> nth_error l k = Some (fst p) /\ nth_error l' k = Some (snd p).
Proof. intros A B. induction l as [|a l IH]; intros [|b l'] [|k] p H; try discriminate; cbn in *; [injection H as <-; auto|apply IH; auto]. Qed.
Lemma scores_close : forall (m : libm) (coef : list (list (F64 m))) b row (s : list (F64 m)) e, e <= / 4 -> well_sized coef b row -> length b = length coef -> affine coef b row s -> scores_in_range coef b e row ->
  in_range s /\ length s = length coef /\ Forall2 (fun a t => Rabs (a - t) <= e) (reals s) (exact_scores coef b row).
Proof.
  intros m coef b row s e He W LB AF SR. destruct (affine_close m coef b row s W LB AF) as [LS CL].
  assert (LC : length (combine coef b) = length coef) by (rewrite combine_length, LB; apply Nat.min_id).
  assert (G : Forall2 (fun (v : f64) (wb : list f64 * f64) => is_finite v = true /\ Rabs (real v) <= 600 /\ Rabs (real v - exact_score row (fst wb) (snd wb)) <= e) s (combine coef b)).
  { apply Forall2_nth_error. split; [transitivity (length coef); [exact LS|symmetry; exact LC]|]. intros k v wb Hv Hwb. apply nth_combine in Hwb. destruct Hwb as [Hw Hb].
    destruct (CL k _ _ Hw Hb) as (v' & Hv' & F & E). change (num (F64 m)) with f64 in *. rewrite Hv in Hv'. injection Hv' as <-. destruct (SR k _ _ Hw Hb) as [S1 S2].
    split; auto. assert (Q : Rabs (real v - exact_score row (fst wb) (snd wb)) <= e) by (eapply Rle_trans; [exact E|exact S2]).
    split; auto. replace (real v) with ((real v - exact_score row (fst wb) (snd wb)) + exact_score row (fst wb) (snd wb)) by ring.
    eapply Rle_trans; [apply Rabs_triang|]. lra. }
  split; [|split; auto].
  - clear - G. unfold in_range. induction G; constructor; tauto || auto.
  - unfold exact_scores, reals. apply Forall2_map_l, Forall2_map_r. eapply Forall2_imp; [|exact G]. cbn. tauto.
Qed.
Lemma softmax_row : forall m d e coef b row (s : list (F64 m)) K, exp_accurate m d -> 0 <= d <= / 16 -> 0 <= e <= / 4 -> length s = K -> (2 <= K)%nat -> (Z.of_nat K <= 2 ^ 48)%Z -> in_range s ->
  Forall2 (fun a t => Rabs (a - t) <= e) (reals s) (exact_scores coef b row) ->
  exists p, sfmax s = Ok p /\ accurate (6 * d + (6 * INR K + 6) * ulp1 + 4 * e) p (softmax (exact_scores coef b row)).
Proof.
  intros m d e coef b row s K HA Hd He <- K2 L R F. assert (N : s <> []) by (intros ->; cbn in K2; lia). destruct (C06_accuracy_float m d s HA Hd N L R) as (p & E & A). exists p. split; auto.
  pose proof (softmax_lip _ _ e He F) as Q. pose proof u_pos. pose proof (pos_INR (length s)).
  assert (0 <= 3 * d + (3 * INR (length s) + 3) * ulp1) by (rewrite ulp1_u; assert (0 <= (3 * INR (length s) + 3) * (2 * u)) by (apply Rmult_le_pos; lra); lra).
  replace (6 * d + (6 * INR (length s) + 6) * ulp1 + 4 * e) with (2 * (3 * d + (3 * INR (length s) + 3) * ulp1) + 4 * e) by ring.
  eapply accurate_trans; [auto| |exact A|exact Q]. lra.
Qed.

Theorem C20_multinomial_accuracy_float : forall (m : libm) d e (L : Type) (c : linear (F64 m) L) f D K b (M : list (list (F64 m))) r,
  exp_accurate m d -> 0 <= d <= / 16 -> 0 <= e <= / 4 -> multinomial c f ->
  fitted_linear c D K b -> rect M r D -> (1 <= r)%nat -> (2 <= K)%nat -> (Z.of_nat K <= 2 ^ 48)%Z ->
  Forall (well_sized (l_coef c) b) M -> Forall (scores_in_range (l_coef c) b e) M ->
  exists P, f (ll M) = Ok P /\
    Forall2 (fun row p => accurate (6 * d + (6 * INR K + 6) * ulp1 + 4 * e) p (softmax (exact_scores (l_coef c) b row))) M P.
Proof.
  intros m d e L c f D K b M r HA Hd He HM F RM Hr HK LK W SR. destruct (C18_dense (F64 m) L c D K b M r F RM Hr) as (S & s & E & SA & AF).
  destruct SA as [[NK ->]|[-> _]]; [|lia]. rewrite (multi_route c f _ HM), E. cbn [bind].
  destruct F as ([LC _] & _ & _ & LB). clear E RM. induction AF as [|row sc M S Q AF IH]; [exists []; split; [reflexivity|constructor]|].
  pose proof (Forall_inv W) as W1. pose proof (Forall_inv_tail W) as W2. pose proof (Forall_inv SR) as SR1. pose proof (Forall_inv_tail SR) as SR2. destruct IH as (P & EP & FP); auto.
  destruct (scores_close m (l_coef c) b row sc e) as (R1 & R2 & R3); auto; try lra; [transitivity K; [exact LB|symmetry; exact LC]|].
  destruct (softmax_row m d e (l_coef c) b row sc K HA Hd He) as (p & Ep & A); auto; [transitivity (length (l_coef c)); [exact R2|exact LC]|].
  exists (p :: P). cbn [mapM]. rewrite Ep. cbn [bind]. rewrite EP. split; [reflexivity|]. constructor; auto.
Qed.
Print Assumptions C20_multinomial_accuracy_float.

(** Two classes, one score: softmax of (-s, s). *)
Theorem C20_multinomial_binary_accuracy_float : forall (m : libm) d e (L : Type) (c : linear (F64 m) L) f D w bw (M : list (list (F64 m))) r,
  exp_accurate m d -> 0 <= d <= / 16 -> 0 <= e <= / 4 -> multinomial c f ->
  fitted_linear c D 1 [bw] -> l_coef c = [w] -> rect M r D -> (1 <= r)%nat ->
  Forall (well_sized [w] [bw]) M -> Forall (scores_in_range [w] [bw] e) M ->
  exists P, f (ll M) = Ok P /\
    Forall2 (fun row p => accurate (6 * d + 18 * ulp1 + 4 * e) p (softmax [- exact_score row w bw; exact_score row w bw])) M P.
Proof.
  intros m d e L c f D w bw M r HA Hd He HM F EW RM Hr W SR. destruct (C18_dense (F64 m) L c D 1 [bw] M r F RM Hr) as (S & s & E & SA & AF).
  destruct SA as [[NK _]|[_ (l & -> & ->)]]; [congruence|]. rewrite (multi_route c f _ HM), E. cbn [bind]. rewrite EW in *.
  clear E RM F. remember (map (fun x : F64 m => [x]) l) as S eqn:ES. revert l ES. induction AF as [|row sc M S Q AF IH]; intros l ES; [destruct l; [|discriminate]; exists []; split; [reflexivity|constructor]|].
  destruct l as [|x l]; [discriminate|]. injection ES as -> ->. pose proof (Forall_inv W) as W1. pose proof (Forall_inv_tail W) as W2. pose proof (Forall_inv SR) as SR1. pose proof (Forall_inv_tail SR) as SR2. destruct (IH ltac:(auto) ltac:(auto) l eq_refl) as (P & EP & FP).
  destruct (scores_close m [w] [bw] row [x] e) as (R1 & R2 & R3); auto; try lra.
  inversion R1 as [|? ? [Fx Bx] _]; subst. cbn [reals map exact_scores combine fst snd] in R3. inversion R3 as [|? ? ? ? R4 _]; subst.
  destruct (opp_fin x Fx) as [Fo Ro].
  assert (R : in_range [f_opp x; x]). { constructor; [split; [auto|rewrite Ro, Rabs_Ropp; auto]|constructor; [split; auto|constructor]]. }
  destruct (C06_accuracy_float m d [f_opp x; x] HA Hd ltac:(discriminate) ltac:(cbn; lia) R) as (p & Ep & A).
  exists (p :: P). cbn [mapM]. change (sfmax [@opp (F64 m) x; x] = Ok p) in Ep. rewrite Ep. cbn [bind]. rewrite EP. split; [reflexivity|]. constructor; auto.
  assert (F2 : Forall2 (fun a t => Rabs (a - t) <= e) (reals [f_opp x; x]) [- exact_score row w bw; exact_score row w bw]).
  { cbn [reals map]. rewrite Ro. constructor; [|constructor; [exact R4|constructor]]. replace (- real x - - exact_score row w bw) with (- (real x - exact_score row w bw)) by ring. rewrite Rabs_Ropp. exact R4. }
  pose proof (softmax_lip _ _ e He F2) as LP. pose proof u_pos. change (INR (length [f_opp x; x])) with 2 in A.
  replace (6 * d + 18 * ulp1 + 4 * e) with (2 * (3 * d + (3 * 2 + 3) * ulp1) + 4 * e) by ring.
  eapply accurate_trans; [rewrite ulp1_u; lra| |exact A|exact LP]. lra.
Qed.
Print Assumptions C20_multinomial_binary_accuracy_float.

Theorem C20_ovr_binary_accuracy_float : forall (m : libm) d e (L : Type) (c : linear (F64 m) L) f D w bw (M : list (list (F64 m))) r,
  exp_accurate m d -> 0 <= d <= / 16 -> 0 <= e <= / 4 -> one_vs_rest c f ->
  fitted_linear c D 1 [bw] -> l_coef c = [w] -> rect M r D -> (1 <= r)%nat ->
  Forall (well_sized [w] [bw]) M -> Forall (scores_in_range [w] [bw] e) M ->
  exists P, f (ll M) = Ok P /\
    Forall2 (fun row p => within (2 * d + 5 * ulp1 + 2 * e) p [1 - logistic (exact_score row w bw); logistic (exact_score row w bw)]) M P.
Proof.
  intros m d e L c f D w bw M r HA Hd He HM F EW RM Hr W SR. destruct (C18_dense (F64 m) L c D 1 [bw] M r F RM Hr) as (S & s & E & SA & AF).
  destruct SA as [[NK _]|[_ (l & -> & ->)]]; [congruence|]. rewrite (ovr_route c f _ HM). unfold predict_proba_lr. rewrite E. cbn [bind]. rewrite EW in *.
  clear E RM F. remember (map (fun x : F64 m => [x]) l) as S eqn:ES. revert l ES. induction AF as [|row sc M S Q AF IH]; intros l ES; [destruct l; [|discriminate]; exists []; split; [reflexivity|constructor]|].
  destruct l as [|x l]; [discriminate|]. injection ES as -> ->. pose proof (Forall_inv W) as W1. pose proof (Forall_inv_tail W) as W2. pose proof (Forall_inv SR) as SR1. pose proof (Forall_inv_tail SR) as SR2. destruct (IH ltac:(auto) ltac:(auto) l eq_refl) as (P & EP & FP).
  destruct (scores_close m [w] [bw] row [x] e) as (R1 & R2 & R3); auto; try lra.
  inversion R1 as [|? ? [Fx Bx] _]; subst. cbn [reals map exact_scores combine fst snd] in R3. inversion R3 as [|? ? ? ? R4 _]; subst.
  destruct (one_minus_err m d x HA Hd Fx Bx) as (p & Ep & Fp & B1 & Fq & B2).
  exists ([f_sub (f_ofZE 1 0) p; p] :: P). cbn [mapM]. rewrite Ep. cbn [bind]. rewrite EP. split; [reflexivity|]. constructor; auto.
  pose proof (logistic_lip _ _ e ltac:(lra) R4) as LP. pose proof (logistic_pos (real x)) as L1. pose proof (logistic_pos (exact_score row w bw)) as L2. pose proof u_pos.
  assert (LQ : Rabs (logistic (real x) - logistic (exact_score row w bw)) <= 2 * e) by (eapply Rle_trans; [exact LP|]; nra).
  assert (B3 : Rabs (real p - logistic (real x)) <= 2 * d + 4 * ulp1) by (eapply Rle_trans; [exact B1|]; rewrite ulp1_u; nra).
  assert (0 < ulp1) by (rewrite ulp1_u; lra).
  set (Lx := logistic (real x)) in *. set (Ls := logistic (exact_score row w bw)) in *.
  constructor; [split; auto|constructor; [split; auto|constructor]].
  - replace (real (f_sub (f_ofZE 1 0) p) - (1 - Ls)) with ((real (f_sub (f_ofZE 1 0) p) - (1 - Lx)) + - (Lx - Ls)) by ring. eapply Rle_trans; [apply Rabs_triang|]. rewrite Rabs_Ropp. lra.
  - replace (real p - Ls) with ((real p - Lx) + (Lx - Ls)) by ring. eapply Rle_trans; [apply Rabs_triang|]. lra.
Qed.
Print Assumptions C20_ovr_binary_accuracy_float.

Lemma ovr_lip : forall (l l' : list R) e, 0 <= e <= / 8 -> Forall2 (fun s t => Rabs (s - t) <= e) l l' ->
  Forall2 (fun a b => 0 <= b /\ Rabs (a - b) <= 8 * e * b) (ovr_probs l) (ovr_probs l').
Proof.
  intros l l' e He H. destruct H as [|x x' l l' Hx H]; [constructor|]. set (K := x :: l). set (K' := x' :: l').
  assert (HL : Forall2 (fun s t => Rabs (s - t) <= e) K K') by (constructor; auto).
  assert (S0 : 0 < Rsum (map logistic K')) by (apply Rsum_pos_lt; [discriminate|apply logistics_pos]).
  assert (S : (1 - 2 * e) * Rsum (map logistic K') <= Rsum (map logistic K) <= (1 + 2 * e) * Rsum (map logistic K')).
  { clear - HL He. induction HL as [|a b K K' Hab HL IH]; cbn [map Rsum]; [lra|]. pose proof (logistic_lip a b e ltac:(lra) Hab) as Q. apply Rabs_le_inv in Q. lra. }
  set (S1 := Rsum (map logistic K)) in *. set (S2 := Rsum (map logistic K')) in *.
  unfold ovr_probs. fold S1 S2. clearbody S1 S2. apply Forall2_map_l, Forall2_map_r. eapply Forall2_imp; [|exact HL]. cbn. intros a b Hab.
  pose proof (logistic_lip a b e ltac:(lra) Hab) as Q. apply Rabs_le_inv in Q. pose proof (logistic_pos b) as Pb. pose proof (logistic_pos a) as Pa.
  assert (S1p : 0 < S1) by nra. set (la := logistic a) in *. set (lb := logistic b) in *.
  split; [left; apply Rdiv_lt_0_compat; lra|].
  assert (X : la / S1 - lb / S2 = (la * S2 - lb * S1) / (S1 * S2)) by (field; lra). rewrite X. unfold Rdiv. rewrite Rabs_mult, (Rabs_pos_eq (/ (S1 * S2))) by (left; apply Rinv_0_lt_compat; nra).
  apply Rmult_le_reg_r with (S1 * S2); [nra|]. rewrite Rmult_assoc, Rinv_l, Rmult_1_r by nra.
  replace (8 * e * (lb * / S2) * (S1 * S2)) with (8 * e * lb * S1) by (field; lra).
  assert (A1 : 0 <= lb * S2) by (apply Rmult_le_pos; lra). assert (A2 : 0 <= e * (lb * S2)) by (apply Rmult_le_pos; lra).
  assert (A3 : la * S2 <= (1 + 2 * e) * (lb * S2)) by (replace ((1 + 2 * e) * (lb * S2)) with (((1 + 2 * e) * lb) * S2) by ring; apply Rmult_le_compat_r; lra).
  assert (A4 : (1 - 2 * e) * (lb * S2) <= la * S2) by (replace ((1 - 2 * e) * (lb * S2)) with (((1 - 2 * e) * lb) * S2) by ring; apply Rmult_le_compat_r; lra).
  assert (A5 : lb * S1 <= (1 + 2 * e) * (lb * S2)) by (replace ((1 + 2 * e) * (lb * S2)) with (lb * ((1 + 2 * e) * S2)) by ring; apply Rmult_le_compat_l; lra).
  assert (A6 : (1 - 2 * e) * (lb * S2) <= lb * S1) by (replace ((1 - 2 * e) * (lb * S2)) with (lb * ((1 - 2 * e) * S2)) by ring; apply Rmult_le_compat_l; lra).
  apply Rle_trans with (4 * (e * (lb * S2))); [apply Rabs_le; lra|].
  assert (A7 : e * (lb * S2) * (1 - 2 * e) <= e * (lb * S1)) by (replace (e * (lb * S2) * (1 - 2 * e)) with (e * ((1 - 2 * e) * (lb * S2))) by ring; apply Rmult_le_compat_l; lra).
  assert (A8 : e * (lb * S2) * (/ 2) <= e * (lb * S2) * (1 - 2 * e)) by (apply Rmult_le_compat_l; lra). lra.
Qed.

Lemma ovr_row : forall m d e coef b row (s : list (F64 m)) K, exp_accurate m d -> 0 <= d <= / 32 -> 0 <= e <= / 8 -> length s = K -> (2 <= K)%nat -> (Z.of_nat K <= 2 ^ 48)%Z -> in_range s ->
  Forall2 (fun a t => Rabs (a - t) <= e) (reals s) (exact_scores coef b row) ->
  exists es p, mapM expit s = Ok es /\ normalise es = Ok p /\ accurate (12 * d + (6 * INR K + 26) * ulp1 + 8 * e) p (ovr_probs (exact_scores coef b row)).
Proof.
  intros m d e coef b row s K HA Hd He <- K2 L R F. assert (N : s <> []) by (intros ->; cbn in K2; lia).
  destruct (ovr_err m d s HA Hd N L R) as (e1 & p & G1 & G2 & G3).
  assert (NZ : eqb (psum (e1 : list (F64 m))) zero = false).
  { destruct (eqb (psum (e1 : list (F64 m))) zero) eqn:EZ; auto. exfalso. destruct e1 as [|x e1]; [apply mapM_length in G1; destruct s; [congruence|discriminate]|].
    cbn [mapM] in G2. unfold psum in EZ. change (f_eqb (fold_left f_add (x :: e1) (f_ofZE 0 0)) (f_ofZE 0 0) = true) in EZ.
    revert G2 EZ. generalize (fold_left f_add (x :: e1) (f_ofZE 0 0)). intros t G2 EZ. destruct t as [z|z| |z mm ee He']; [discriminate G2| | |];
    rewrite f_eqb_x in EZ; rewrite b2x_zero in EZ; [destruct z; discriminate|discriminate|].
    rewrite (b2x_fin (B754_finite z mm ee He') eq_refl) in EZ. cbn [x_eqb] in EZ. apply Reqb_eq in EZ.
    apply F2R_neq_0 in EZ; auto. destruct z; discriminate. }
  exists e1, p. split; auto. split; [rewrite (normalise_nz m e1 NZ); exact G2|].
  pose proof u_pos. pose proof (pos_INR (length s)).
  replace (12 * d + (6 * INR (length s) + 26) * ulp1 + 8 * e) with (2 * (6 * d + (3 * INR (length s) + 13) * ulp1) + 8 * e) by ring.
  eapply accurate_trans; [| |apply to_accurate; exact G3|exact (ovr_lip _ _ e He F)]; [|lra].
  rewrite ulp1_u. assert (0 <= (3 * INR (length s) + 13) * (2 * u)) by (apply Rmult_le_pos; lra). lra.
Qed.
Theorem C20_ovr_multi_accuracy_float : forall (m : libm) d e (L : Type) (c : linear (F64 m) L) f D K b (M : list (list (F64 m))) r,
  exp_accurate m d -> 0 <= d <= / 32 -> 0 <= e <= / 8 -> one_vs_rest c f ->
  fitted_linear c D K b -> rect M r D -> (1 <= r)%nat -> (2 <= K)%nat -> (Z.of_nat K <= 2 ^ 48)%Z ->
  Forall (well_sized (l_coef c) b) M -> Forall (scores_in_range (l_coef c) b e) M ->
  exists P, f (ll M) = Ok P /\
    Forall2 (fun row p => accurate (12 * d + (6 * INR K + 26) * ulp1 + 8 * e) p (ovr_probs (exact_scores (l_coef c) b row))) M P.
Proof.
  intros m d e L c f D K b M r HA Hd He HM F RM Hr HK LK W SR. destruct (C18_dense (F64 m) L c D K b M r F RM Hr) as (S & s & E & SA & AF).
  destruct SA as [[NK ->]|[-> _]]; [|lia]. rewrite (ovr_route c f _ HM). unfold predict_proba_lr. rewrite E. cbn [bind].
  destruct F as ([LC _] & _ & _ & LB). clear E RM.
  assert (X : exists es P, mapM (mapM expit) S = Ok es /\ mapM normalise es = Ok P /\
    Forall2 (fun row p => accurate (12 * d + (6 * INR K + 26) * ulp1 + 8 * e) p (ovr_probs (exact_scores (l_coef c) b row))) M P).
  { induction AF as [|row sc M S Q AF IH]; [exists [], []; repeat constructor|].
    pose proof (Forall_inv W) as W1. pose proof (Forall_inv_tail W) as W2. pose proof (Forall_inv SR) as SR1. pose proof (Forall_inv_tail SR) as SR2. destruct IH as (es & P & E1 & E2 & FP); auto.
    destruct (scores_close m (l_coef c) b row sc e) as (R1 & R2 & R3); auto; try lra; [transitivity K; [exact LB|symmetry; exact LC]|].
    destruct (ovr_row m d e (l_coef c) b row sc K HA Hd He) as (e1 & p & G1 & G2 & A); auto; [transitivity (length (l_coef c)); [exact R2|exact LC]|].
    exists (e1 :: es), (p :: P). cbn [mapM]. rewrite G1. cbn [bind]. rewrite E1. split; [reflexivity|]. cbn [mapM]. rewrite G2. cbn [bind]. rewrite E2.
    split; [reflexivity|]. constructor; auto. }
  destruct X as (es & P & E1 & E2 & FP). exists P. rewrite E1. cbn [bind]. auto.
Qed.
Print Assumptions C20_ovr_multi_accuracy_float.

(** C15.  XGBoost: leaf values whose absolute values add up to at most 599. *)
Definition leaf_sum_error (ne : nat) (vs : list f64) : R := INR ne * ulp1 * Rsum (map Rabs (reals vs)).
Definition good_leaves (e : R) (vs : list f64) : Prop :=
  all_finite vs /\ Rsum (map Rabs (reals vs)) <= 599 /\ leaf_sum_error (length vs) vs <= e.
Lemma leaves_close : forall (vs : list f64) e, (Z.of_nat (length vs) <= 2 ^ 52)%Z -> e <= / 4 -> good_leaves e vs ->
  is_finite (fold_left f_add vs (f_ofZE 0 0)) = true /\ Rabs (real (fold_left f_add vs (f_ofZE 0 0))) <= 600 /\
  Rabs (real (fold_left f_add vs (f_ofZE 0 0)) - Rsum (reals vs)) <= e.
Proof.
  intros vs e L He (F & B & E). destruct (pow_up (length vs) L) as [[P1 P2] P3].
  assert (Z0 : is_finite (f_ofZE 0 0) = true /\ real (f_ofZE 0 0) = 0) by (split; reflexivity). destruct Z0 as [F0 R0].
  pose proof (Rasum_pos (map real vs)) as SP. fold (reals vs) in SP. change (Rsum (map Rabs (reals vs))) with (Rasum (reals vs)) in B.
  assert (E' : INR (length vs) * ulp1 * Rasum (reals vs) <= e) by exact E. clear E.
  destruct (fold_signed vs (f_ofZE 0 0) F F0) as [G1 G2].
  { rewrite R0, Rabs_R0, Rplus_0_l. fold (reals vs). apply Rle_trans with (1024 * 2); [apply Rmult_le_compat; lra|].
    apply Rle_trans with (bpow radix2 11); [change (bpow radix2 11) with 2048; lra|apply bpow_le; lia]. }
  rewrite R0, Rabs_R0, !Rplus_0_l in G2. fold (reals vs) in G2. split; auto.
  assert (Q : Rabs (real (fold_left f_add vs (f_ofZE 0 0)) - Rsum (reals vs)) <= e).
  { eapply Rle_trans; [exact G2|]. eapply Rle_trans; [|exact E']. apply Rmult_le_compat_r; lra. }
  split; auto. assert (T : Rabs (Rsum (reals vs)) <= Rasum (reals vs)).
  { clear. unfold Rasum. induction (reals vs) as [|x l IH]; cbn [map Rsum]; [rewrite Rabs_R0; lra|]. eapply Rle_trans; [apply Rabs_triang|]. lra. }
  replace (real (fold_left f_add vs (f_ofZE 0 0))) with ((real (fold_left f_add vs (f_ofZE 0 0)) - Rsum (reals vs)) + Rsum (reals vs)) by ring.
  eapply Rle_trans; [apply Rabs_triang|]. lra.
Qed.
Lemma mapM_all : forall (A B : Type) (f : A -> res B) (Q : A -> B -> Prop) l, (forall x, In x l -> exists y, f x = Ok y /\ Q x y) -> exists out, mapM f l = Ok out /\ Forall2 Q l out.
Proof.
  intros A B f Q. induction l as [|x l IH]; intro H; [exists []; split; [reflexivity|constructor]|].
  destruct (H x (or_introl eq_refl)) as (y & E & HQ). destruct IH as (out & E2 & F); [intros; apply H; right; auto|].
  exists (y :: out). cbn [mapM]. rewrite E. cbn [bind]. rewrite E2. split; [reflexivity|constructor; auto].
Qed.

Theorem C15_multi_accuracy_float : forall (m : libm) d e (L : Type) (s : xgb_src (F64 m) L) df ne nc T (M : list (list (F64 m))) (V : nat -> nat -> list (F64 m) -> F64 m),
  exp_accurate m d -> 0 <= d <= / 16 -> 0 <= e <= / 4 -> (Z.of_nat ne <= 2 ^ 52)%Z -> (Z.of_nat nc <= 2 ^ 48)%Z ->
  xs_objective s = lit "multi:softprob" -> xs_booster s = lit "gbtree" -> xs_df s = Some df ->
  xs_nclasses s = Z.of_nat nc -> xs_nest s = Z.of_nat ne -> nc <> 2%nat -> (1 <= nc)%nat -> booster df ne nc T -> M <> [] ->
  (forall e k row, (e < ne)%nat -> (k < nc)%nat -> In row M -> fall row (T e k) = Some [V e k row]) ->
  (forall k row, (k < nc)%nat -> In row M -> good_leaves e (map (fun e => V e k row) (seq 0 ne))) ->
  let score row := map (fun k => Rsum (map (fun e => real (V e k row)) (seq 0 ne))) (seq 0 nc) in
  exists g P, xgb_convert s = Ok g /\ xgb_predict_proba g (ll M) = Ok P /\
    Forall2 (fun row p => accurate (6 * d + (6 * INR nc + 6) * ulp1 + 4 * e) p (softmax (score row))) M P.
Proof.
  intros m d e L s df ne nc T M V HA Hd He Lne Lnc HO HG HD HC HE N2 N1 HB NM HV HL score.
  destruct (C15_multi (F64 m) L s df ne nc T M V HO HG HD HC HE N2 HB NM HV) as (g & Eg & _ & EP). exists g.
  destruct (mapM_all _ _ (fun row => sfmax (map (fun k => fold_left add (map (fun e => V e k row) (seq 0 ne)) (zero : F64 m)) (seq 0 nc)))
    (fun row p => accurate (6 * d + (6 * INR nc + 6) * ulp1 + 4 * e) p (softmax (score row))) M) as (P & E & F).
  - intros row Hr. set (sc := map (fun k => fold_left add (map (fun e => V e k row) (seq 0 ne)) (zero : F64 m)) (seq 0 nc)).
    assert (LS : length sc = nc) by (unfold sc; rewrite map_length, seq_length; reflexivity).
    assert (CL : forall k, In k (seq 0 nc) -> is_finite (fold_left f_add (map (fun e => V e k row) (seq 0 ne)) (f_ofZE 0 0)) = true /\
       Rabs (real (fold_left f_add (map (fun e => V e k row) (seq 0 ne)) (f_ofZE 0 0))) <= 600 /\
       Rabs (real (fold_left f_add (map (fun e => V e k row) (seq 0 ne)) (f_ofZE 0 0)) - Rsum (map (fun e => real (V e k row)) (seq 0 ne))) <= e).
    { intros k Hk. apply in_seq in Hk. specialize (HL k row ltac:(lia) Hr).
      destruct (leaves_close (map (fun e => V e k row) (seq 0 ne)) e) as (L1 & L2 & L3); [rewrite map_length, seq_length; auto|lra|exact HL|]. split; auto. split; auto.
      unfold reals in L3. rewrite map_map in L3. exact L3. }
    assert (IR : in_range sc). { unfold in_range, sc. apply Forall_map. apply Forall_forall. intros k Hk. destruct (CL k Hk) as (C1 & C2 & _). split; [exact C1|exact C2]. }
    assert (F2 : Forall2 (fun a t => Rabs (a - t) <= e) (reals sc) (score row)).
    { unfold reals, sc, score. rewrite map_map. apply Forall2_map_l, Forall2_map_r. apply Forall2_diag. intros k Hk. apply (CL k Hk). }
    destruct (C06_accuracy_float m d sc HA Hd) as (p & Ep & A); auto; [intro Q; rewrite Q in LS; cbn in LS; lia|rewrite LS; auto|].
    exists p. split; auto. pose proof (softmax_lip _ _ e He F2) as LP. pose proof u_pos. pose proof (pos_INR nc).
    change (@length (num (F64 m)) sc) with (@length f64 sc) in *. rewrite LS in A.
    replace (6 * d + (6 * INR nc + 6) * ulp1 + 4 * e) with (2 * (3 * d + (3 * INR nc + 3) * ulp1) + 4 * e) by ring.
    eapply accurate_trans; [| |exact A|exact LP]; [|lra]. rewrite ulp1_u. assert (0 <= (3 * INR nc + 3) * (2 * u)) by (apply Rmult_le_pos; lra). lra.
  - exists P. split; auto. split; auto. rewrite EP. exact E.
Qed.
Print Assumptions C15_multi_accuracy_float.

Theorem C15_binary_accuracy_float : forall (m : libm) d e (L : Type) (s : xgb_src (F64 m) L) df ne T (M : list (list (F64 m))) (V : nat -> list (F64 m) -> F64 m),
  exp_accurate m d -> 0 <= d <= / 16 -> 0 <= e <= / 4 -> (Z.of_nat ne <= 2 ^ 52)%Z ->
  xs_objective s = lit "binary:logistic" -> xs_booster s = lit "gbtree" -> xs_df s = Some df ->
  xs_nclasses s = 2%Z -> xs_nest s = Z.of_nat ne -> booster df ne 1 (fun e _ => T e) -> M <> [] ->
  (forall e row, (e < ne)%nat -> In row M -> fall row (T e) = Some [V e row]) ->
  (forall row, In row M -> good_leaves e (map (fun e => V e row) (seq 0 ne))) ->
  let score row := Rsum (map (fun e => real (V e row)) (seq 0 ne)) in
  exists g P, xgb_convert s = Ok g /\ xgb_predict_proba g (ll M) = Ok P /\
    Forall2 (fun row p => within (2 * d + 5 * ulp1 + 2 * e) p [1 - logistic (score row); logistic (score row)]) M P.
Proof.
  intros m d e L s df ne T M V HA Hd He Lne HO HG HD HC HE HB NM HV HL score.
  destruct (C15_binary (F64 m) L s df ne T M V HO HG HD HC HE HB NM HV) as (g & Eg & _ & EP). exists g.
  destruct (mapM_all _ _ (fun row => p <- expit (fold_left add (map (fun e => V e row) (seq 0 ne)) (zero : F64 m)) ;; Ok [sub one p; p])
    (fun row p => within (2 * d + 5 * ulp1 + 2 * e) p [1 - logistic (score row); logistic (score row)]) M) as (P & E & F).
  - intros row Hr. set (x := fold_left add (map (fun e => V e row) (seq 0 ne)) (zero : F64 m)).
    destruct (leaves_close (map (fun e => V e row) (seq 0 ne)) e) as (Fx & Bx & R4); [rewrite map_length, seq_length; auto|lra|apply HL; auto|].
    change (fold_left f_add (map (fun e => V e row) (seq 0 ne)) (f_ofZE 0 0)) with x in *. unfold reals in R4. rewrite map_map in R4. change (Rabs (real x - score row) <= e) in R4. clearbody x.
    destruct (one_minus_err m d x HA Hd Fx Bx) as (p & Ep & Fp & B1 & Fq & B2).
    exists [f_sub (f_ofZE 1 0) p; p]. rewrite Ep. split; [reflexivity|].
    pose proof (logistic_lip _ _ e ltac:(lra) R4) as LP. pose proof (logistic_pos (real x)) as L1. pose proof (logistic_pos (score row)) as L2. pose proof u_pos.
    assert (LQ : Rabs (logistic (real x) - logistic (score row)) <= 2 * e) by (eapply Rle_trans; [exact LP|]; nra).
    assert (B3 : Rabs (real p - logistic (real x)) <= 2 * d + 4 * ulp1) by (eapply Rle_trans; [exact B1|]; rewrite ulp1_u; nra).
    assert (0 < ulp1) by (rewrite ulp1_u; lra).
    set (Lx := logistic (real x)) in *. set (Ls := logistic (score row)) in *.
    constructor; [split; auto|constructor; [split; auto|constructor]].
    + replace (real (f_sub (f_ofZE 1 0) p) - (1 - Ls)) with ((real (f_sub (f_ofZE 1 0) p) - (1 - Lx)) + - (Lx - Ls)) by ring. eapply Rle_trans; [apply Rabs_triang|]. rewrite Rabs_Ropp. lra.
    + replace (real p - Ls) with ((real p - Lx) + (Lx - Ls)) by ring. eapply Rle_trans; [apply Rabs_triang|]. lra.
  - exists P. split; auto. split; auto. rewrite EP. exact E.
Qed.
Print Assumptions C15_binary_accuracy_float.

(** C16.  Gradient boosting: from raw scores to probabilities. *)
Lemma mapM_range : forall (A B : Type) (l : list A) (f : nat -> res B) (out : list B),
  length out = length l -> (forall i x y, nth_error l i = Some x -> nth_error out i = Some y -> f i = Ok y) -> mapM f (range (length l)) = Ok out.
Proof.
  intros A B l f out L H. apply mapM_Forall2. apply Forall2_nth_error. unfold range. rewrite seq_length. split; [auto|].
  intros j i y Hj Hy. rewrite nth_error_seq in Hj. destruct (Nat.ltb_spec j (length l)) as [Q|]; [|discriminate]. injection Hj as <-. cbn.
  destruct (nth_error l j) as [x|] eqn:Ex; [eapply H; eauto|]. apply nth_error_None in Ex. lia.
Qed.
Lemma log_row_K : forall m d dl (s : list (F64 m)) K, exp_accurate m d -> log_accurate m dl -> 0 <= d <= / 16 -> 0 <= dl <= / 4096 -> length s = K -> (1 <= K)%nat -> (Z.of_nat K <= 2 ^ 46)%Z -> in_range s ->
  exists z : f64, logsumexp s = Ok z /\
    exists p : list f64, mapM (fun v : F64 m => safe_exp (@sub (F64 m) v z)) s = Ok p /\ accurate (nb_error d dl K) p (softmax (reals s)).
Proof.
  intros m d dl s K HA HL Hd Hdl <- K1 LK R. destruct (log_row m d dl s HA HL Hd Hdl) as (z & Ez & _ & p & Ep & P0 & A); auto; [intros ->; cbn in K1; lia|]. eauto.
Qed.
Theorem C16_multi_accuracy_float : forall m d dl K (raw : list (list (F64 m))), exp_accurate m d -> log_accurate m dl -> 0 <= d <= / 16 -> 0 <= dl <= / 4096 ->
  raw <> [] -> (1 <= K)%nat -> (Z.of_nat K <= 2 ^ 46)%Z -> Forall (fun s => length s = K /\ in_range s) raw ->
  exists P, raw_to_proba (LMulti K) raw = Ok P /\
    Forall2 (fun s p => accurate (nb_error d dl K) p (softmax (reals s)) /\ Rabs (Rsum (reals p) - 1) <= nb_error d dl K + INR K * tiny) raw P.
Proof.
  intros m d dl K raw HA HL Hd Hdl NR K1 LK H.
  assert (X : exists (es : list (list (F64 m))) (zs : list (F64 m)) P, mapM (mapM safe_exp) raw = Ok es /\ mapM (fun r => safe_log (psum r)) es = Ok zs /\
     length zs = length raw /\ length P = length raw /\
     (forall i s z p, nth_error raw i = Some s -> nth_error zs i = Some z -> nth_error P i = Some p -> mapM (fun v : F64 m => safe_exp (sub v z)) s = Ok p) /\
     Forall2 (fun s p => accurate (nb_error d dl K) p (softmax (reals s)) /\ Rabs (Rsum (reals p) - 1) <= nb_error d dl K + INR K * tiny) raw P).
  { clear NR. induction H as [|s raw [Ls Rs] H (es & zs & P & E1 & E2 & L1 & L2 & N3 & F3)]; [exists [], [], []; repeat split; [|constructor]; intros [|i]; discriminate|].
    destruct (log_row_K m d dl s K HA HL Hd Hdl Ls K1 LK Rs) as (z & Ez & p & Ep & A).
    unfold logsumexp in Ez. inv_bind Ez. exists (a :: es), (z :: zs), (p :: P). cbn [mapM]. rewrite E. cbn [bind]. rewrite E1. split; [reflexivity|]. rewrite Ez. cbn [bind]. rewrite E2. split; [reflexivity|].
    cbn [length]. split; [congruence|]. split; [congruence|]. split.
    - intros [|i] s' z' p' H1 H2 H3; cbn in H1, H2, H3; [injection H1 as <-; injection H2 as <-; injection H3 as <-; exact Ep|eapply N3; eauto].
    - constructor; auto. split; auto.
      assert (LQ : length (softmax (reals s)) = K) by (unfold softmax, reals; rewrite !map_length; exact Ls).
      pose proof (accurate_sum _ p (softmax (reals s)) A) as Q1. rewrite LQ in Q1. apply Q1. apply softmax_dist. destruct s; [cbn in Ls; lia|discriminate]. }
  destruct X as (es & zs & P & E1 & E2 & L1 & L2 & N3 & F3). exists P. split; auto.
  unfold raw_to_proba. rewrite apply_2d_ll, E1. cbn [bind].
  assert (NE : es <> []) by (apply mapM_length in E1; destruct es; [destruct raw; [congruence|discriminate]|discriminate]).
  unfold apply_axis_2d. cbn [issparse ll andb]. change (1 =? 1)%Z with true. cbv iota. cbn [items bind].
  unfold ll at 1. cbn [items bind]. rewrite mapM_map. cbn [iter_item bind]. rewrite mapM_Ok. cbn [bind].
  rewrite mapM_map. rewrite E2. cbn [bind].
  apply mapM_range; auto. intros i s p Hs Hp. destruct (nth_error zs i) as [z|] eqn:Hz; [|apply nth_error_None in Hz; apply nth_error_lt in Hs; lia].
  rewrite Forall_forall in H. destruct (H s (nth_error_In _ _ Hs)) as [Ls _]. specialize (N3 i s z p Hs Hz Hp).
  rewrite <- Ls. apply mapM_range; [apply (mapM_length _ _ _ N3)|]. intros j v q Hv Hq. unfold lnth. rewrite Hs. cbn [bind]. change (num (F64 m)) with f64 in *. rewrite Hv. cbn [bind]. rewrite Hz. cbn [bind].
  apply mapM_Forall2 in N3. exact (proj2 (proj1 (Forall2_nth_error _ _ _) N3) j v q Hv Hq).
Qed.
Print Assumptions C16_multi_accuracy_float.

Theorem C16_binary_accuracy_float : forall m d (vs : list (F64 m)), exp_accurate m d -> 0 <= d <= / 16 -> vs <> [] -> in_range vs ->
  exists P, raw_to_proba LBinary (map (fun v => [v]) vs) = Ok P /\
    Forall2 (fun v p => within (2 * d + 5 * ulp1) p [1 - logistic (real v); logistic (real v)]) vs P.
Proof.
  intros m d vs HA Hd N R. 
  destruct (mapM_all _ _ (expit (A:=F64 m)) (fun v p => within (2 * d + 5 * ulp1) [f_sub (f_ofZE 1 0) p; p] [1 - logistic (real v); logistic (real v)]) vs) as (ps & E & F).
  - intros v Hv. unfold in_range in R. rewrite Forall_forall in R. destruct (R v Hv) as [Fv Bv].
    destruct (one_minus_err m d v HA Hd Fv Bv) as (p & Ep & Fp & B1 & Fq & B2). exists p. split; auto. pose proof (logistic_pos (real v)). pose proof u_pos.
    constructor; [split; auto|constructor; [split; auto|constructor]]. eapply Rle_trans; [exact B1|]. rewrite ulp1_u. nra.
  - exists (map (fun p : F64 m => [sub one p; p]) ps). split; [apply binary_proba_ok; auto|]. apply Forall2_map_r. exact F.
Qed.
Print Assumptions C16_binary_accuracy_float.

(** Concrete cases.  The correctly rounded functions have accuracy 2^-53. *)
Lemma u_le : 0 <= u <= / 4096.
Proof. split; [left; apply bpow_gt_0|]. change (/ 4096) with (bpow radix2 (-12)). apply bpow_le. lia. Qed.
Lemma in_range_ints : forall l : list Z, Forall (fun n => (Z.abs n <= 600)%Z) l -> in_range (map (fun n => f_ofZE n 0) l).
Proof.
  intros l H. induction H as [|n l Hn H IH]; constructor; auto. destruct (real_ofZ n ltac:(lia)) as [E F]. split; auto. rewrite E, <- abs_IZR. apply IZR_le. exact Hn.
Qed.

(** Softmax of (1, 2, -3): correct to 2^-48 relative. *)
Example C06_accuracy_ex : exists p : list f64, sfmax (A:=F64 crlibm) [ofZ 1; ofZ 2; ofZ (-3)] = Ok p /\ accurate (bpow radix2 (-48)) p (softmax [1; 2; -3]).
Proof.
  destruct (C06_accuracy_float crlibm u [f_ofZE 1 0; f_ofZE 2 0; f_ofZE (-3) 0] cr_exp_accurate) as (p & E & A).
  - pose proof u_le. lra.
  - discriminate.
  - cbn. lia.
  - apply (in_range_ints [1; 2; -3]%Z). repeat constructor; cbn; lia.
  - exists p. split; [exact E|]. unfold reals in A. cbn [map length INR] in A. rewrite (proj1 (real_ofZ 1 ltac:(cbn; lia))), (proj1 (real_ofZ 2 ltac:(cbn; lia))), (proj1 (real_ofZ (-3) ltac:(cbn; lia))) in A.
    eapply accurate_le; [|apply softmax_pos|exact A]. rewrite ulp1_u. change (-48)%Z with (5 + -53)%Z. rewrite bpow_plus. fold u. change (bpow radix2 5) with 32. pose proof u_pos. lra.
Qed.

(** The fastText softmax of (1000, 999), which sfmax cannot compute. *)
Example C58_accuracy_ex : exists p : list f64, ft_sfmax (A:=F64 crlibm) [ofZ 1000; ofZ 999] = Ok p /\ within (bpow radix2 (-46)) p (softmax [1000; 999]).
Proof.
  assert (HU : 1024 <= huge) by apply huge_large.
  destruct (C58_accuracy_float crlibm u [f_ofZE 1000 0; f_ofZE 999 0] cr_exp_accurate) as (p & E & A).
  - pose proof u_le. lra.
  - discriminate.
  - cbn. lia.
  - cbn [length INR]. pose proof u_le. lra.
  - constructor; [|constructor; [|constructor]].
    + destruct (real_ofZ 1000 ltac:(cbn; lia)) as [-> ->]. split; auto. rewrite Rabs_pos_eq; lra.
    + destruct (real_ofZ 999 ltac:(cbn; lia)) as [-> ->]. split; auto. rewrite Rabs_pos_eq; lra.
  - exists p. split; [exact E|]. unfold reals in A. cbn [map length INR] in A. rewrite (proj1 (real_ofZ 1000 ltac:(cbn; lia))), (proj1 (real_ofZ 999 ltac:(cbn; lia))) in A.
    unfold within in *. eapply Forall2_imp; [|exact A]. cbn beta. intros v x [F B]. split; auto. eapply Rle_trans; [exact B|]. rewrite ulp1_u. change (-46)%Z with (7 + -53)%Z. rewrite bpow_plus. fold u. change (bpow radix2 7) with 128. pose proof u_pos. lra.
Qed.

(** Scores of lin2 and lin3 on a row. *)
Example C20_accuracy_ex : forall m : libm, let row := [ofZ 3; ofZ (-4) : F64 m] in
  well_sized (l_coef (@lin3 (F64 m))) [zero; zero; zero : F64 m] row /\ scores_in_range (l_coef (@lin3 (F64 m))) [zero; zero; zero : F64 m] (/ 8) row /\
  multinomial (@lin3 (F64 m)) (logistic_predict_proba lin3) /\ fitted_linear (@lin3 (F64 m)) 2 3 [zero; zero; zero] /\
  well_sized [[one; ofZ 2 : F64 m]] [one : F64 m] row /\ scores_in_range [[one; ofZ 2 : F64 m]] [one : F64 m] (/ 8) row /\
  one_vs_rest (@lin2 (F64 m)) (logistic_predict_proba lin2) /\ fitted_linear (@lin2 (F64 m)) 2 1 [one] /\
  (0 <= u <= / 32) /\ exp_accurate crlibm u.
Proof.
  intros m row. unfold row. pose proof ulp1_small. pose proof tiny_small. pose proof huge_large. pose proof u_le.
  assert (FI : forall n, (Z.abs n <= 2 ^ 53)%Z -> is_finite (f_ofZE n 0) = true) by (intros; apply real_ofZ; auto).
  split; [|split; [|split; [|split; [|split; [|split; [|split; [|split; [|split]]]]]]]].
  - split; [repeat constructor; apply FI; cbn; lia|]. split; [cbn; lia|]. intros k w bk Hw Hb. unfold lin3, linear_convert in Hw. cbn [l_coef] in Hw.
    destruct k as [|[|[|k]]]; cbn [nth_error] in Hw, Hb; [injection Hw as <-; injection Hb as <-..|destruct k; discriminate];
    (split; [repeat constructor; apply FI; cbn; lia|]; split; [apply FI; cbn; lia|]; change (@zero (F64 m)) with (f_ofZE 0 0); change (@one (F64 m)) with (f_ofZE 1 0); change (@ofZ (F64 m)) with (fun n => f_ofZE n 0); cbv beta; ints; lra).
  - intros k w bk Hw Hb. unfold lin3, linear_convert in Hw. cbn [l_coef] in Hw.
    destruct k as [|[|[|k]]]; cbn [nth_error] in Hw, Hb; [injection Hw as <-; injection Hb as <-..|destruct k; discriminate];
    (change (@zero (F64 m)) with (f_ofZE 0 0); change (@one (F64 m)) with (f_ofZE 1 0); change (@ofZ (F64 m)) with (fun n => f_ofZE n 0); cbv beta; ints; split; [apply Rabs_le|]; lra).
  - split; auto. repeat split; try discriminate. intros [Q|[Q|[Q _]]]; discriminate.
  - apply C18_example.
  - split; [repeat constructor; apply FI; cbn; lia|]. split; [cbn; lia|]. intros k w bk Hw Hb.
    destruct k as [|k]; cbn [nth_error] in Hw, Hb; [injection Hw as <-; injection Hb as <-|destruct k; discriminate];
    (split; [repeat constructor; apply FI; cbn; lia|]; split; [apply FI; cbn; lia|]; change (@zero (F64 m)) with (f_ofZE 0 0); change (@one (F64 m)) with (f_ofZE 1 0); change (@ofZ (F64 m)) with (fun n => f_ofZE n 0); cbv beta; ints; lra).
  - intros k w bk Hw Hb.
    destruct k as [|k]; cbn [nth_error] in Hw, Hb; [injection Hw as <-; injection Hb as <-|destruct k; discriminate];
    (change (@zero (F64 m)) with (f_ofZE 0 0); change (@one (F64 m)) with (f_ofZE 1 0); change (@ofZ (F64 m)) with (fun n => f_ofZE n 0); cbv beta; ints; split; [apply Rabs_le|]; lra).
  - left. split; auto. left. reflexivity.
  - apply C18_example.
  - lra.
  - apply cr_exp_accurate.
Qed.

(** Leaf values 1, -2, 5; raw scores; naive Bayes scores. *)
Example C15_accuracy_ex : good_leaves (/ 8) [f_ofZE 1 0; f_ofZE (-2) 0; f_ofZE 5 0].
Proof.
  pose proof ulp1_small. split; [repeat constructor; apply real_ofZ; cbn; lia|]. unfold leaf_sum_error, reals. cbn [map Rsum length].
  repeat match goal with |- context [real (f_ofZE ?n 0)] => rewrite (proj1 (real_ofZ n ltac:(cbn; lia))) end.
  repeat match goal with |- context [Rabs (IZR ?n)] => rewrite <- (abs_IZR n); cbn [Z.abs] end. cbn [INR]. lra.
Qed.
Example C16_accuracy_ex :
  exp_accurate crlibm u /\ log_accurate crlibm u /\ 0 <= u <= / 4096 /\
  Forall (fun s => length s = 2%nat /\ in_range s) [[f_ofZE 3 0; f_ofZE (-50) 0]; [f_ofZE 0 0; f_ofZE 500 0]].
Proof.
  split; [apply cr_exp_accurate|]. split; [apply cr_log_accurate|]. split; [apply u_le|].
  constructor; [|constructor; [|constructor]]; (split; [reflexivity|]); [apply (in_range_ints [3; -50]%Z)|apply (in_range_ints [0; 500]%Z)]; repeat constructor; cbn; lia.
Qed.
Definition ex_nb (m : libm) : discrete (F64 m) nat := {| d_log_prior := [ofZ (-1); ofZ (-2)]; d_classes := [0%nat; 1%nat]; d_log_prob := [[ofZ (-3)]; [ofZ (-4)]] |}.
Example C26_accuracy_ex : forall m : libm, exists J, jll (Multinomial (ex_nb m)) (ll [[ofZ 2]]) = Ok J /\
  Forall (fun s : list (F64 m) => s <> [] /\ (Z.of_nat (length s) <= 2 ^ 46)%Z /\ in_range s) J.
Proof.
  intro m. pose proof ulp1_small. pose proof tiny_small. pose proof huge_large.
  assert (FI : forall n, (Z.abs n <= 2 ^ 53)%Z -> is_finite (f_ofZE n 0) = true) by (intros; apply real_ofZ; auto).
  destruct (C25_error_float m nat (ex_nb m) 2 [[ofZ 2]]) as (J & E & F & _); try reflexivity; [discriminate| |].
  { constructor; [|constructor]. split; [repeat constructor; apply FI; cbn; lia|]. split; [cbn; lia|]. intros k w bk Hw Hb. cbn [ex_nb d_log_prob d_log_prior] in Hw, Hb.
    destruct k as [|[|k]]; cbn [nth_error] in Hw, Hb; [injection Hw as <-; injection Hb as <-..|destruct k; discriminate];
    (split; [repeat constructor; apply FI; cbn; lia|]; split; [apply FI; cbn; lia|]; change (@ofZ (F64 m)) with (fun n => f_ofZE n 0); cbv beta; ints; lra). }
  exists J. split; auto. inversion F as [|? sc ? J' [LS HS] F']; subst. inversion F'; subst. constructor; [|constructor].
  destruct sc as [|a [|b [|]]]; try discriminate LS. split; [discriminate|]. split; [cbn; lia|].
  destruct (HS 0%nat _ _ eq_refl eq_refl) as (v & Hv & Fv & Ev). cbn in Hv. injection Hv as <-.
  destruct (HS 1%nat _ _ eq_refl eq_refl) as (v & Hv & Fw & Ew). cbn in Hv. injection Hv as <-.
  change (@ofZ (F64 m)) with (fun n => f_ofZE n 0) in Ev, Ew. cbv beta in Ev, Ew. revert Ev Ew. ints. intros Ev Ew. apply Rabs_le_inv in Ev, Ew.
  constructor; [split; [exact Fv|apply Rabs_le; lra]|constructor; [split; [exact Fw|apply Rabs_le; lra]|constructor]].
Qed.
