(** C15, C16: gradient boosting on doubles from the predictions of the trees to the
    probabilities and the labels. *)
From Coq Require Import String Reals Lia Lra List.
From Flocq Require Import Core BinarySingleNaN.
From Verif Require Import Model.Py Model.Arith Model.F64 Model.XR Model.Utils Model.Base Model.Tree Model.Ensemble Model.Xgb.
From Verif Require Import Spec.Matrix Spec.Reals Spec.Trees Spec.Xgb Spec.Libm Spec.Rounding Spec.Boost.
From Verif Require Import Proofs.Lib Proofs.Laws Proofs.Unit Proofs.Arrays Proofs.Arrays2 Proofs.CRLibm Proofs.RealLib Proofs.Argmax Proofs.Ensemble Proofs.Boosting Proofs.SumErr Proofs.LseErr Proofs.BoostErr.
From Verif Require Import Props.Xgb Props.Boosting Props.Accuracy Props.Probabilities.
Import ListNotations.
Local Open Scope R_scope.

(** The list [s] holds, for input row [i], the exact score of every class: the
    initial score [f] of the clipped prior plus lr times the sum of the tree
    predictions. *)
Definition exact_raw {m : libm} {L} (f : R -> R) (g : gb (F64 m) L) (M P0 : list (list (F64 m))) (i j0 K : nat) (s : list R) : Prop :=
  length s = K /\
  forall k x, nth_error s k = Some x -> exists (p0 : f64) qs, cell P0 i (j0 + k) = Some p0 /\ stage_predictions g M i k qs /\
    x = f (clip64 (real p0)) + real (gb_lr g) * Rsum (reals qs).

Lemma nth_ext_all : forall (A : Type) (l l' : list A), (forall k, nth_error l k = nth_error l' k) -> l = l'.
Proof.
  intros A. induction l as [|x l IH]; intros [|y l'] H; auto; [discriminate (H 0%nat)|discriminate (H 0%nat)|].
  pose proof (H 0%nat) as H0. injection H0 as ->. f_equal. apply IH. intro k. exact (H (S k)).
Qed.
Lemma F2_length : forall (A B : Type) (R : A -> B -> Prop) l l', Forall2 R l l' -> length l = length l'.
Proof. intros A B R l l' H. induction H; cbn; congruence. Qed.
Lemma choose : forall (A B : Type) (Q : nat -> A -> B -> Prop) (l : list A), (forall k v, nth_error l k = Some v -> exists x, Q k v x) ->
  exists s, length s = length l /\ forall k v x, nth_error l k = Some v -> nth_error s k = Some x -> Q k v x.
Proof.
  intros A B Q l. revert Q. induction l as [|a l IH]; intros Q H; [exists []; split; auto; intros [|k]; discriminate|].
  destruct (H 0%nat a eq_refl) as (x & Hx). destruct (IH (fun k => Q (S k)) (fun k v => H (S k) v)) as (s & Ls & Hs).
  exists (x :: s). split; [cbn; congruence|]. intros [|k] v y H1 H2; cbn in H1, H2; [congruence|eapply Hs; eauto].
Qed.
Lemma cell_of : forall (A : Type) (M : list (list A)) i k row v, nth_error M i = Some row -> nth_error row k = Some v -> cell M i k = Some v.
Proof. intros A M i k row v H1 H2. unfold cell. rewrite H1. exact H2. Qed.
Lemma stage_unique : forall (A : arith) L (g : gb A L) M i k qs qs', stage_predictions g M i k qs -> stage_predictions g M i k qs' -> qs = qs'.
Proof.
  intros A L g M i k qs qs' H. revert qs'. unfold stage_predictions in *. induction H as [|row q es qs (t & p & E1 & E2 & E3) H IH]; intros qs' H'; inversion H' as [|? q' ? ? (t' & p' & E1' & E2' & E3') H'']; subst; auto.
  f_equal; [congruence|apply IH; auto].
Qed.
Lemma exact_unique : forall (m : libm) L f (g : gb (F64 m) L) M P0 i j0 K s s', exact_raw f g M P0 i j0 K s -> exact_raw f g M P0 i j0 K s' -> s = s'.
Proof.
  intros m L f g M P0 i j0 K s s' [L1 H1] [L2 H2]. apply nth_ext_all. intro k. destruct (nth_error s k) as [x|] eqn:Ex, (nth_error s' k) as [y|] eqn:Ey; auto.
  - destruct (H1 k x Ex) as (p & qs & A1 & B1 & ->), (H2 k y Ey) as (p' & qs' & A2 & B2 & ->). rewrite (stage_unique _ _ _ _ _ _ _ _ B1 B2). congruence.
  - apply nth_error_None in Ey. apply nth_error_lt in Ex. lia.
  - apply nth_error_None in Ex. apply nth_error_lt in Ey. lia.
Qed.
Lemma raw_rows : forall (m : libm) dl e (L : Type) (g : gb (F64 m) L) M P0 I init r K j0 f,
  0 <= dl -> e <= / 4 -> gb_fits g M r K -> gb_init g = Some init -> get_init_raw (gb_loss g) (ll M) init = Ok I -> rect I r K ->
  (forall i k a, cell I i k = Some a -> exists p0, cell P0 i (j0 + k) = Some p0 /\ is_finite (a : f64) = true /\ Rabs (real a) <= 24 /\ Rabs (real a - f (clip64 (real p0))) <= 24 * dl + 6 * ulp1 + tiny) ->
  (forall i k qs, (i < r)%nat -> (k < K)%nat -> stage_predictions g M i k qs -> good_stages dl e (gb_lr g) qs) ->
  exists raw, gb_raw_predict g (ll M) = Ok raw /\ rect raw r K /\ Forall in_range raw /\
    forall i row, nth_error raw i = Some row -> exists s, exact_raw f g M P0 i j0 K s /\ Forall2 (fun a t => Rabs (a - t) <= e) (reals row) s.
Proof.
  intros m dl e L g M P0 I init r K j0 f Hdl He GF GI EI RI HI HQ. destruct (C16_raw (F64 m) L g M I init r K GF GI EI RI) as (raw & ER & RR & HC).
  assert (X : forall i k v, cell raw i k = Some v -> is_finite (v : f64) = true /\ Rabs (real v) <= 600 /\ exists x, Rabs (real v - x) <= e /\
    exists (p0 : f64) qs, cell P0 i (j0 + k) = Some p0 /\ stage_predictions g M i k qs /\ x = f (clip64 (real p0)) + real (gb_lr g) * Rsum (reals qs)).
  { intros i k v Hv. assert (Hik : (i < r)%nat /\ (k < K)%nat).
    { unfold cell in Hv. destruct (nth_error raw i) as [row|] eqn:Er; [|discriminate]. destruct RR as [R1 R2]. rewrite <- R1. split; [apply nth_error_lt in Er; auto|].
      rewrite Forall_forall in R2. rewrite <- (R2 row (nth_error_In _ _ Er)). apply nth_error_lt in Hv. auto. }
    assert (Ha : exists a, cell I i k = Some a).
    { unfold cell. destruct RI as [R1 R2]. destruct (nth_error I i) as [row|] eqn:Er; [|apply nth_error_None in Er; lia]. rewrite Forall_forall in R2. specialize (R2 row (nth_error_In _ _ Er)).
      destruct (nth_error row k) eqn:Ek; eauto. apply nth_error_None in Ek. lia. }
    destruct Ha as (a & Ha). destruct (HC i k a Ha) as (qs & SQ & Hc). rewrite Hv in Hc. injection Hc as ->. destruct (HI i k a Ha) as (p0 & Hp & Fa & Ba & Ca).
    destruct (raw_close dl e (gb_lr g) a qs (f (clip64 (real p0)))) as (V1 & V2 & V3); auto; [apply (HQ i k); tauto|].
    split; [exact V1|]. split; [exact V2|]. eexists. split; [exact V3|]. exists p0, qs. auto. }
  exists raw. split; auto. split; auto. split.
  - apply Forall_forall. intros row Hr. apply In_nth_error in Hr. destruct Hr as (i & Hi). apply Forall_forall. intros v Hv. apply In_nth_error in Hv. destruct Hv as (k & Hk).
    destruct (X i k v) as (V1 & V2 & _); auto. eapply cell_of; eauto.
  - intros i row Hi. destruct (choose _ _ (fun k (v : f64) x => Rabs (real v - x) <= e /\
      exists (p0 : f64) qs, cell P0 i (j0 + k) = Some p0 /\ stage_predictions g M i k qs /\ x = f (clip64 (real p0)) + real (gb_lr g) * Rsum (reals qs)) row) as (s & Ls & Hs).
    { intros k v Hk. destruct (X i k v) as (_ & _ & x & H1 & H2); [eapply cell_of; eauto|]. exists x. auto. }
    assert (LR : length row = K) by (destruct RR as [_ R2]; rewrite Forall_forall in R2; apply (R2 row (nth_error_In _ _ Hi))).
    exists s. split; [split; [etransitivity; [exact Ls|exact LR]|]|].
    + intros k x Hx. destruct (nth_error row k) as [v|] eqn:Hk; [|apply nth_error_None in Hk; apply nth_error_lt in Hx; change (num (F64 m)) with f64 in *; lia]. destruct (Hs k v x Hk Hx) as [_ H2]. exact H2.
    + unfold reals. apply Forall2_map_l. apply Forall2_nth_error. split; [symmetry; exact Ls|]. intros k v x Hk Hx. apply (Hs k v x Hk Hx).
Qed.

(** C16.  Multinomial deviance: the computed probabilities are, entry by entry, the
    softmax of the exact scores up to a relative error. *)
Theorem C16_multi_end_float : forall (m : libm) d dl e (L : Type) (g : gb (F64 m) L) M P0 init r K,
  exp_accurate m d -> log_accurate m dl -> 0 <= d <= / 16 -> 0 <= dl <= / 4096 -> 0 <= e <= / 4 -> (Z.of_nat K <= 2 ^ 46)%Z ->
  gb_fits g M r K -> gb_loss g = LMulti K -> gb_init g = Some init -> init (ll M) = Ok P0 -> rect P0 r K -> Forall all_finite P0 ->
  (forall i k qs, (i < r)%nat -> (k < K)%nat -> stage_predictions g M i k qs -> good_stages dl e (gb_lr g) qs) ->
  exists P, gb_predict_proba g (ll M) = Ok P /\ length P = r /\
    forall i p, nth_error P i = Some p -> exists s, exact_raw ln g M P0 i 0 K s /\ accurate (2 * nb_error d dl K + 4 * e) p (softmax s).
Proof.
  intros m d dl e L g M P0 init r K HA HL Hd Hdl He LK GF GL GI EP RP FP HQ.
  destruct (mapM_all _ _ (fun row : list (F64 m) => mapM (fun x => safe_log (clip x EPS (sub one EPS))) row)
     (fun row out => Forall2 (fun (p a : f64) => is_finite a = true /\ Rabs (real a) <= 24 /\ Rabs (real a - ln (clip64 (real p))) <= 24 * dl + 6 * ulp1 + tiny) row out) P0) as (I & EI & FI).
  { intros row Hr. rewrite Forall_forall in FP. specialize (FP row Hr). apply mapM_all. intros p Hp. unfold all_finite in FP. rewrite Forall_forall in FP. 
    destruct (log_prior m dl p HL Hdl (FP p Hp)) as (a & Ea & H). exists a. auto. }
  assert (RI : rect I r K).
  { destruct RP as [R1 R2]. split; [rewrite <- R1; symmetry; apply (F2_length _ _ _ _ _ FI)|]. clear - FI R2. induction FI as [|row out P0 I H FI IH]; constructor; [|apply IH; inversion R2; auto].
    inversion R2; subst. symmetry. apply (F2_length _ _ _ _ _ H). }
  destruct (raw_rows m dl e L g M P0 I init r K 0 ln) as (raw & ER & RR & IR & HS); auto; try lra.
  { rewrite GL. unfold get_init_raw. rewrite EP. cbn [bind]. rewrite apply_2d_ll. exact EI. }
  { intros i k a Ha. unfold cell in Ha. destruct (nth_error I i) as [out|] eqn:Eo; [|discriminate]. apply Forall2_nth_error in FI. destruct FI as [L1 FI].
    destruct (nth_error P0 i) as [row|] eqn:Er; [|apply nth_error_None in Er; apply nth_error_lt in Eo; lia]. specialize (FI i row out Er Eo). apply Forall2_nth_error in FI. destruct FI as [L2 FI].
    cbn [plus]. destruct (nth_error row k) as [p|] eqn:Ep; [|exfalso; apply nth_error_None in Ep; apply nth_error_lt in Ha; change (num (F64 m)) with f64 in *; assert (L3 : length row = length out) by exact L2; lia].
    exists p. split; [exact (cell_of _ _ _ _ _ _ Er Ep)|]. exact (FI k p a Ep Ha). }
  destruct GF as (RM & Hn & Hr & HK & GF). assert (NR : raw <> []) by (intros ->; destruct RR as [R1 _]; cbn in R1; lia).
  destruct (C16_multi_accuracy_float m d dl K raw HA HL Hd Hdl NR HK LK) as (P & EPP & FPP).
  { destruct RR as [_ R2]. rewrite Forall_forall in *. intros s Hs. split; [apply R2; auto|apply IR; auto]. }
  exists P. split; [unfold gb_predict_proba; rewrite ER; cbn [bind]; rewrite GL; exact EPP|]. split; [etransitivity; [symmetry; exact (F2_length _ _ _ _ _ FPP)|apply RR]|].
  intros i p Hp. apply Forall2_nth_error in FPP. destruct FPP as [LP0 FPP]. assert (LP : length raw = length P) by exact LP0. destruct (nth_error raw i) as [row|] eqn:Er; [|apply nth_error_None in Er; apply nth_error_lt in Hp; lia].
  destruct (FPP i row p Er Hp) as [A _]. destruct (HS i row Er) as (s & ES & CS). exists s. split; auto.
  eapply accurate_trans; [| |exact A|exact (softmax_lip _ _ e He CS)]; [|lra].
  unfold nb_error. pose proof (pos_INR K). assert (0 < ulp1) by apply bpow_gt_0. assert (0 <= (6 * INR K + 1364) * ulp1) by (apply Rmult_le_pos; lra). lra.
Qed.
Print Assumptions C16_multi_end_float.

(** The class whose exact score is far enough ahead is predicted. *)
Theorem C16_multi_label_float : forall (m : libm) d dl e (L : Type) (g : gb (F64 m) L) M P0 init r K,
  exp_accurate m d -> log_accurate m dl -> 0 <= d <= / 16 -> 0 <= dl <= / 4096 -> 0 <= e <= / 4 -> (Z.of_nat K <= 2 ^ 46)%Z ->
  gb_fits g M r K -> gb_loss g = LMulti K -> gb_init g = Some init -> init (ll M) = Ok P0 -> rect P0 r K -> Forall all_finite P0 ->
  (forall i k qs, (i < r)%nat -> (k < K)%nat -> stage_predictions g M i k qs -> good_stages dl e (gb_lr g) qs) ->
  length (gb_classes g) = K -> 2 * nb_error d dl K + 4 * e <= / 8 ->
  exists out, gb_predict g (ll M) = Ok out /\ length out = r /\
    forall i y s k, nth_error out i = Some y -> exact_raw ln g M P0 i 0 K s -> leads_by (4 * (2 * nb_error d dl K + 4 * e)) s k ->
      nth_error (gb_classes g) k = Some y.
Proof.
  intros m d dl e L g M P0 init r K HA HL Hd Hdl He LK GF GL GI EP RP FP HQ LC HE.
  destruct (C16_multi_end_float m d dl e L g M P0 init r K HA HL Hd Hdl He LK GF GL GI EP RP FP HQ) as (P & EPP & LP & HP).
  assert (NB : ulp1 <= 2 * nb_error d dl K + 4 * e).
  { unfold nb_error. pose proof (pos_INR K). assert (0 < ulp1) by apply bpow_gt_0. assert (0 <= 6 * INR K * ulp1) by (apply Rmult_le_pos; lra). lra. }
  assert (X : exists out, mapM (fun a => j <- argmax a ;; lnth (gb_classes g) j) P = Ok out).
  { destruct (mapM_all _ _ (fun a => j <- argmax a ;; lnth (gb_classes g) j) (fun _ _ => True) P) as (out & Eo & _); eauto.
    intros p Hp. apply In_nth_error in Hp. destruct Hp as (i & Hi). destruct (HP i p Hi) as (s & [Ls _] & A). assert (LP2 : length p = K) by (etransitivity; [exact (F2_length _ _ _ _ _ A)|]; unfold softmax; rewrite map_length; exact Ls).
    destruct (argmax_total (F64_ord m) p) as (j & Ej); [intros ->; cbn in LP2; destruct GF as (_ & _ & _ & HK & _); lia|].
    rewrite Ej. cbn [bind]. unfold lnth. destruct (nth_error (gb_classes g) j) as [y|] eqn:Ey; [eauto|]. apply nth_error_None in Ey. apply (argmax_iff (F64_ord m)), best_lt in Ej. lia. }
  destruct X as (out & Eo). exists out. split; [unfold gb_predict; rewrite EPP; exact Eo|]. split; [rewrite (mapM_length _ _ _ Eo); exact LP|].
  intros i y s k Hy HS HLd. apply (pick_ok (gb_classes g) (F64_ord m)) in Eo. apply Forall2_nth_error in Eo. destruct Eo as [L1 Eo].
  destruct (nth_error P i) as [p|] eqn:Hp; [|apply nth_error_None in Hp; apply nth_error_lt in Hy; change (num (F64 m)) with f64 in *; lia].
  destruct (Eo i p y Hp Hy) as (j & Bj & Hj). destruct (HP i p Hp) as (s' & HS' & A). rewrite <- (exact_unique _ _ _ _ _ _ _ _ _ _ _ HS HS') in A.
  assert (Bk : best p k). { apply (lead_kept m (2 * nb_error d dl K + 4 * e) p s k); auto. destruct HS as [Ls _]. rewrite Ls. lia. }
  apply (argmax_iff (F64_ord m)) in Bj, Bk. congruence.
Qed.
Print Assumptions C16_multi_label_float.

(** Binomial deviance: two columns, the second the logistic function of the exact
    score (log-odds of the clipped prior of the second class plus lr times the sum
    of the predictions). *)
Theorem C16_binary_end_float : forall (m : libm) d dl e (L : Type) (g : gb (F64 m) L) M P0 init r,
  exp_accurate m d -> log_accurate m dl -> 0 <= d <= / 16 -> 0 <= dl <= / 4096 -> 0 <= e <= / 4 ->
  gb_fits g M r 1 -> gb_loss g = LBinary -> gb_init g = Some init -> init (ll M) = Ok P0 -> rect P0 r 2 -> Forall all_finite P0 ->
  (forall i qs, (i < r)%nat -> stage_predictions g M i 0 qs -> good_stages dl e (gb_lr g) qs) ->
  exists P, gb_predict_proba g (ll M) = Ok P /\ length P = r /\
    forall i p, nth_error P i = Some p -> exists x, exact_raw logit g M P0 i 1 1 [x] /\
      within (2 * d + 5 * ulp1 + 2 * e) p [1 - logistic x; logistic x].
Proof.
  intros m d dl e L g M P0 init r HA HL Hd Hdl He GF GL GI EP RP FP HQ.
  assert (X : exists pos I, mapM (fun a : list (F64 m) => v <- lnth a 1 ;; Ok (clip v EPS (sub one EPS))) P0 = Ok pos /\
     mapM (fun a : F64 m => q <- div a (sub one a) ;; v <- safe_log q ;; Ok [v]) pos = Ok I /\
     Forall2 (fun (row out : list (F64 m)) => exists p a : f64, nth_error row 1 = Some p /\ out = [a] /\ is_finite a = true /\ Rabs (real a) <= 24 /\ Rabs (real a - logit (clip64 (real p))) <= 24 * dl + 6 * ulp1 + tiny) P0 I).
  { destruct RP as [_ R2]. clear EP HQ. induction P0 as [|row P0 IH]; [exists [], []; repeat constructor|]. pose proof (Forall_inv R2) as Lr. pose proof (Forall_inv FP) as Fr. cbn beta in Lr.
    destruct (IH (Forall_inv_tail R2) (Forall_inv_tail FP)) as (pos & I & E1 & E2 & FI).
    destruct row as [|p0 [|p1 [|]]]; try discriminate. inversion Fr as [|? ? _ Fr2]; subst. inversion Fr2 as [|? ? Fp _]; subst.
    destruct (log_odds m dl p1 HL Hdl Fp) as (q & a & Eq & Ea & Fa & Ba & Ca).
    exists (clip p1 EPS (sub one EPS) :: pos), ([a : F64 m] :: I). cbn [mapM]. unfold lnth at 1. cbn [nth_error bind]. rewrite E1. split; [reflexivity|].
    change (num (F64 m)) with f64 in *. rewrite Eq. cbn [bind]. rewrite Ea. cbn [bind]. rewrite E2. split; [reflexivity|]. constructor; auto. exists p1, a. cbn. auto. }
  destruct X as (pos & I & E1 & E2 & FI).
  assert (RI : rect I r 1).
  { destruct RP as [R1 _]. split; [rewrite <- R1; symmetry; exact (F2_length _ _ _ _ _ FI)|]. clear - FI. induction FI as [|row out P0 I (p & a & _ & -> & _) FI IH]; constructor; auto. }
  destruct (raw_rows m dl e L g M P0 I init r 1 1 logit) as (raw & ER & RR & IR & HS); auto; try lra.
  { rewrite GL. unfold get_init_raw. rewrite EP. cbn [bind]. unfold init_binary. rewrite E1. cbn [bind]. exact E2. }
  { intros i k a Ha. unfold cell in Ha. destruct (nth_error I i) as [out|] eqn:Eo; [|discriminate]. apply Forall2_nth_error in FI. destruct FI as [L1 FI].
    destruct (nth_error P0 i) as [row|] eqn:Er; [|apply nth_error_None in Er; apply nth_error_lt in Eo; lia]. destruct (FI i row out Er Eo) as (p & a' & Hp & -> & H).
    destruct k as [|[|k]]; try discriminate. injection Ha as <-. exists p. split; [exact (cell_of _ _ _ _ _ _ Er Hp)|]. exact H. }
  { intros i k qs Hi Hk. destruct k; [apply HQ; auto|lia]. }
  destruct (one_column raw r RR) as (vs & -> & Lv). destruct GF as (RM & Hn & Hr & HK & GF).
  assert (NV : vs <> []) by (intros ->; cbn in Lv; lia).
  assert (IV : in_range vs). { apply Forall_forall. intros v Hv. rewrite Forall_forall in IR. exact (Forall_inv (IR [v] (in_map (fun x : F64 m => [x]) vs v Hv))). }
  destruct (C16_binary_accuracy_float m d vs HA Hd NV IV) as (P & EPP & FPP).
  exists P. split; [unfold gb_predict_proba; rewrite ER; cbn [bind]; rewrite GL; exact EPP|]. split; [etransitivity; [symmetry; exact (F2_length _ _ _ _ _ FPP)|exact Lv]|].
  intros i p Hp. apply Forall2_nth_error in FPP. destruct FPP as [LP0 FPP]. assert (LP : length vs = length P) by exact LP0.
  destruct (nth_error vs i) as [v|] eqn:Er; [|apply nth_error_None in Er; apply nth_error_lt in Hp; lia]. pose proof (FPP i v p Er Hp) as W.
  destruct (HS i [v]) as (s & ES & CS); [rewrite nth_error_map', Er; reflexivity|]. cbn [reals map] in CS. inversion CS as [|? x ? s' Cx CS' Q1 Q2]; subst s. inversion CS'; subst s'. exists x. split; auto.
  pose proof (logistic_lip _ _ e ltac:(lra) Cx) as LPz. pose proof (logistic_pos x) as LX.
  assert (LQ : Rabs (logistic (real v) - logistic x) <= 2 * e) by (eapply Rle_trans; [exact LPz|]; nra).
  inversion W as [|p0 ? ? ? [F0 B0] W']; subst. inversion W' as [|p1 ? ? ? [F1 B1] W'']; subst. inversion W''; subst.
  constructor; [split; auto|constructor; [split; auto|constructor]].
  - replace (real p0 - (1 - logistic x)) with ((real p0 - (1 - logistic (real v))) + - (logistic (real v) - logistic x)) by ring. eapply Rle_trans; [apply Rabs_triang|]. rewrite Rabs_Ropp. lra.
  - replace (real p1 - logistic x) with ((real p1 - logistic (real v)) + (logistic (real v) - logistic x)) by ring. eapply Rle_trans; [apply Rabs_triang|]. lra.
Qed.
Print Assumptions C16_binary_end_float.

Lemma logistic_gap : forall x E, 0 < E <= / 16 -> 8 * E <= x -> 2 * E < 2 * logistic x - 1.
Proof.
  intros x E HE Hx. unfold logistic. set (t := exp (- x)). assert (T0 : 0 < t) by apply exp_pos.
  assert (T1 : t * (1 + 8 * E) <= 1).
  { assert (Q : 1 + 8 * E <= exp x) by (apply Rle_trans with (exp (8 * E)); [apply exp_ineq1_le|apply exp_le; auto]).
    unfold t. assert (P : exp (- x) * exp x = 1) by (rewrite <- exp_plus, Rplus_opp_l; apply exp_0). fold t in P |- *. nra. }
  apply Rmult_lt_reg_r with (1 + t); [lra|]. replace ((2 * / (1 + t) - 1) * (1 + t)) with (1 - t) by (field; lra).
  assert (t <= / (1 + 8 * E)) by (apply Rmult_le_reg_r with (1 + 8 * E); [lra|]; rewrite Rinv_l by lra; lra). nra.
Qed.
(** The sign of the exact score decides, when it is not too close to zero. *)
Theorem C16_binary_label_float : forall (m : libm) d dl e (L : Type) (g : gb (F64 m) L) M P0 init r c0 c1,
  exp_accurate m d -> log_accurate m dl -> 0 <= d <= / 16 -> 0 <= dl <= / 4096 -> 0 <= e <= / 4 ->
  gb_fits g M r 1 -> gb_loss g = LBinary -> gb_init g = Some init -> init (ll M) = Ok P0 -> rect P0 r 2 -> Forall all_finite P0 ->
  (forall i qs, (i < r)%nat -> stage_predictions g M i 0 qs -> good_stages dl e (gb_lr g) qs) ->
  gb_classes g = [c0; c1] -> 2 * d + 5 * ulp1 + 2 * e <= / 16 ->
  exists out, gb_predict g (ll M) = Ok out /\ length out = r /\
    forall i y x, nth_error out i = Some y -> exact_raw logit g M P0 i 1 1 [x] ->
      (8 * (2 * d + 5 * ulp1 + 2 * e) <= x -> y = c1) /\ (x <= - (8 * (2 * d + 5 * ulp1 + 2 * e)) -> y = c0).
Proof.
  intros m d dl e L g M P0 init r c0 c1 HA HL Hd Hdl He GF GL GI EP RP FP HQ LC HE.
  destruct (C16_binary_end_float m d dl e L g M P0 init r HA HL Hd Hdl He GF GL GI EP RP FP HQ) as (P & EPP & LP & HP).
  set (E := 2 * d + 5 * ulp1 + 2 * e) in *. assert (E0 : 0 < E) by (unfold E; assert (0 < ulp1) by apply bpow_gt_0; lra).
  assert (X : exists out, mapM (fun a => j <- argmax a ;; lnth (gb_classes g) j) P = Ok out).
  { destruct (mapM_all _ _ (fun a => j <- argmax a ;; lnth (gb_classes g) j) (fun _ _ => True) P) as (out & Eo & _); eauto.
    intros p Hp. apply In_nth_error in Hp. destruct Hp as (i & Hi). destruct (HP i p Hi) as (x & _ & A). pose proof (F2_length _ _ _ _ _ A) as LP2. cbn [length] in LP2.
    destruct (argmax_total (F64_ord m) p) as (j & Ej); [intros ->; discriminate|].
    rewrite Ej. cbn [bind]. unfold lnth. destruct (nth_error (gb_classes g) j) as [y|] eqn:Ey; [eauto|]. apply nth_error_None in Ey. apply (argmax_iff (F64_ord m)), best_lt in Ej. rewrite LC in Ey. cbn [length] in Ey.
    change (num (F64 m)) with f64 in *. assert (LP3 : length p = 2%nat) by exact LP2. lia. }
  destruct X as (out & Eo). exists out. split; [unfold gb_predict; rewrite EPP; exact Eo|]. split; [rewrite (mapM_length _ _ _ Eo); exact LP|].
  intros i y x Hy HS. apply (pick_ok (gb_classes g) (F64_ord m)) in Eo. apply Forall2_nth_error in Eo. destruct Eo as [L1 Eo].
  destruct (nth_error P i) as [p|] eqn:Hp; [|apply nth_error_None in Hp; apply nth_error_lt in Hy; change (num (F64 m)) with f64 in *; lia].
  destruct (Eo i p y Hp Hy) as (j & Bj & Hj). destruct (HP i p Hp) as (x' & HS' & A). pose proof (exact_unique _ _ _ _ _ _ _ _ _ _ _ HS HS') as QX. injection QX as <-.
  inversion A as [|p0 ? ? ? [F0 B0] W']; subst. inversion W' as [|p1 ? ? ? [F1 B1] W'']; subst. inversion W''; subst. rewrite LC in Hj. apply Rabs_le_inv in B0, B1.
  apply (argmax_iff (F64_ord m)) in Bj.
  assert (C : forall k, best ([p0; p1] : list (F64 m)) k -> j = k) by (intros k Bk; apply (argmax_iff (F64_ord m)) in Bk; congruence).
  assert (N0 : is_nan p0 = false) by (clear - F0; destruct p0; auto; discriminate). assert (N1 : is_nan p1 = false) by (clear - F1; destruct p1; auto; discriminate).
  split; intro Hx.
  - pose proof (logistic_gap x E ltac:(lra) Hx) as G. assert (Q : real p0 < real p1) by lra.
    assert (B : best ([p0; p1] : list (F64 m)) 1).
    { right. exists p0, [p1], p1. split; auto. split; auto. split; auto. split; auto. split.
      - intros [|[|k]] w Hw; cbn in Hw; try (destruct k; discriminate); injection Hw as <-; change (@ltb (F64 m)) with f_ltb; rewrite fin_ltb by auto; apply Rltb_ge; lra.
      - intros [|k] w Hk Hw; [|lia]. injection Hw as <-. left. change (@ltb (F64 m)) with f_ltb. rewrite fin_ltb by auto. apply Rltb_lt. exact Q. }
    rewrite (C 1%nat B) in Hj. cbn in Hj. congruence.
  - pose proof (logistic_gap (- x) E ltac:(lra) ltac:(lra)) as G.
    assert (SY : logistic (- x) = 1 - logistic x).
    { unfold logistic. rewrite Ropp_involutive. pose proof (exp_pos x). assert (PX : exp (- x) = / exp x) by (apply exp_Ropp). rewrite PX. field. lra. }
    assert (Q : real p1 < real p0) by lra.
    assert (B : best ([p0; p1] : list (F64 m)) 0).
    { right. exists p0, [p1], p0. split; auto. split; auto. split; auto. split; auto. split.
      - intros [|[|k]] w Hw; cbn in Hw; try (destruct k; discriminate); injection Hw as <-; change (@ltb (F64 m)) with f_ltb; rewrite fin_ltb by auto; apply Rltb_ge; lra.
      - intros k w Hk. lia. }
    rewrite (C 0%nat B) in Hj. cbn in Hj. congruence.
Qed.
Print Assumptions C16_binary_label_float.

Lemma convert_classes : forall (A : arith) L (s : xgb_src A L) g, xgb_convert s = Ok g -> xg_classes g = xs_classes s.
Proof. intros A L s g H. unfold xgb_convert in H. repeat (inv_bind H). injection H as <-. reflexivity. Qed.
(** C15.  The XGBoost classifier predicts the class whose exact score (sum of the
    leaf values) is far enough ahead. *)
Theorem C15_multi_label_float : forall (m : libm) d e (L : Type) (s : xgb_src (F64 m) L) df ne nc T (M : list (list (F64 m))) (V : nat -> nat -> list (F64 m) -> F64 m),
  exp_accurate m d -> 0 <= d <= / 16 -> 0 <= e <= / 4 -> (Z.of_nat ne <= 2 ^ 52)%Z -> (Z.of_nat nc <= 2 ^ 48)%Z ->
  xs_objective s = lit "multi:softprob" -> xs_booster s = lit "gbtree" -> xs_df s = Some df ->
  xs_nclasses s = Z.of_nat nc -> xs_nest s = Z.of_nat ne -> nc <> 2%nat -> (1 <= nc)%nat -> booster df ne nc T -> M <> [] ->
  (forall e k row, (e < ne)%nat -> (k < nc)%nat -> In row M -> fall row (T e k) = Some [V e k row]) ->
  (forall k row, (k < nc)%nat -> In row M -> good_leaves e (map (fun e => V e k row) (seq 0 ne))) ->
  length (xs_classes s) = nc -> 6 * d + (6 * INR nc + 6) * ulp1 + 4 * e <= / 8 ->
  let score row := map (fun k => Rsum (map (fun e => real (V e k row)) (seq 0 ne))) (seq 0 nc) in
  exists g out, xgb_convert s = Ok g /\ xgb_predict g (ll M) = Ok out /\
    Forall2 (fun row y => forall k, leads_by (4 * (6 * d + (6 * INR nc + 6) * ulp1 + 4 * e)) (score row) k -> nth_error (xs_classes s) k = Some y) M out.
Proof.
  intros m d e L s df ne nc T M V HA Hd He Lne Lnc HO HG HD HC HE N2 N1 HB NM HV HL LC HE8 score.
  destruct (C15_multi_accuracy_float m d e L s df ne nc T M V HA Hd He Lne Lnc HO HG HD HC HE N2 N1 HB NM HV HL) as (g & P & Eg & EP & FP). fold score in FP.
  pose proof (convert_classes _ _ s g Eg) as CL. set (E := 6 * d + (6 * INR nc + 6) * ulp1 + 4 * e) in *.
  assert (U0 : 0 < ulp1) by apply bpow_gt_0. assert (EB : ulp1 <= E) by (unfold E; pose proof (pos_INR nc); assert (0 <= 6 * INR nc * ulp1) by (apply Rmult_le_pos; lra); lra).
  assert (X : exists out, mapM (fun a => j <- argmax a ;; lnth (xg_classes g) j) P = Ok out /\
    Forall2 (fun row y => forall k, leads_by (4 * E) (score row) k -> nth_error (xs_classes s) k = Some y) M out).
  { clear EP HV HL NM. induction FP as [|row p M P A FP IH]; [exists []; repeat constructor|]. destruct IH as (out & Eo & Fo).
    assert (LS : length (score row) = nc) by (unfold score; rewrite map_length, seq_length; reflexivity).
    assert (LP : length p = nc) by (etransitivity; [exact (F2_length _ _ _ _ _ A)|]; unfold softmax; rewrite map_length; exact LS).
    destruct (argmax_total (F64_ord m) p) as (j & Ej); [intros ->; cbn in LP; lia|]. pose proof Ej as Bj. apply (argmax_iff (F64_ord m)) in Bj. pose proof (best_lt (p : list (F64 m)) j Bj) as Lj0. assert (Lj : (j < length p)%nat) by exact Lj0. clear Lj0.
    destruct (nth_error (xs_classes s) j) as [y|] eqn:Ey; [|apply nth_error_None in Ey; lia].
    exists (y :: out). split; [cbn [mapM]; rewrite Ej; cbn [bind]; unfold lnth at 1; rewrite CL, Ey; cbn [bind]; rewrite CL in Eo; rewrite Eo; reflexivity|].
    constructor; auto. intros k Hk. assert (Bk : best (p : list (F64 m)) k) by (apply (lead_kept m E p (score row) k); auto; rewrite LS; auto). apply (argmax_iff (F64_ord m)) in Bk. congruence. }
  destruct X as (out & Eo & Fo). exists g, out. split; auto. split; auto. unfold xgb_predict. rewrite EP. exact Eo.
Qed.
Print Assumptions C15_multi_label_float.

(** A one-stage ensemble of two leaves 1 and 0 over the prior (0, 1), which is
    clipped: the second class is predicted. *)
Definition leaf64 (m : libm) (v : F64 m) : tree (F64 m) nat :=
  {| t_left := [(-1)%Z]; t_right := [(-1)%Z]; t_feature := [(-2)%Z]; t_thr := [zero]; t_value := [[v]]; t_classes := [] |}.
Definition stage64 (m : libm) (ls : loss) (vs : list (F64 m)) : gb (F64 m) nat :=
  {| gb_estimators := [map (leaf64 m) vs]; gb_init := Some (fun _ => Ok [[ofZ 0; ofZ 1]]); gb_lr := ofZ 1; gb_nfeat := 1; gb_loss := ls; gb_classes := [7; 8]%nat |}.
Lemma stage64_fits : forall m ls vs, vs <> [] -> gb_fits (stage64 m ls vs) [[ofZ 0]] 1 (length vs).
Proof.
  intros m ls vs N. split; [split; [reflexivity|repeat constructor]|]. split; [cbn; lia|]. split; [lia|]. split; [destruct vs; [congruence|cbn; lia]|]. split; [discriminate|].
  split; [constructor; auto; apply map_length|]. intros row t [<-|[]] Ht. apply in_map_iff in Ht. destruct Ht as (v & <- & _). exists [v]. split; reflexivity.
Qed.
Lemma stage64_pred : forall m ls vs i k qs, (i < 1)%nat -> stage_predictions (stage64 m ls vs) [[ofZ 0]] i k qs -> exists v, nth_error vs k = Some v /\ qs = [v].
Proof.
  intros m ls vs i k qs Hi H. unfold stage_predictions in H. cbn [gb_estimators stage64] in H. inversion H as [|? q ? ? (t & p & E1 & E2 & E3) H']; subst. inversion H'; subst.
  assert (Q : option_map (leaf64 m) (nth_error vs k) = Some t) by (rewrite <- nth_error_map; exact E1). clear E1. destruct (nth_error vs k) as [v|]; [|discriminate Q]. injection Q as <-. exists v. split; auto.
  unfold reg_predict in E2. cbn in E2. injection E2 as <-. destruct i; [|lia]. injection E3 as <-. reflexivity.
Qed.
Lemma stage64_good : forall m (v : F64 m), v = ofZ 1 \/ v = ofZ 0 -> good_stages u (/ 64) (ofZ 1 : F64 m) [v].
Proof.
  intros m v Hv. change (@ofZ (F64 m)) with (fun n => f_ofZE n 0) in *. cbv beta in *. pose proof ulp1_small. pose proof tiny_small. pose proof u_le. destruct (real_ofZ 1 ltac:(cbn; lia)) as [R1 F1]. destruct (real_ofZ 0 ltac:(cbn; lia)) as [R0 F0].
  assert (U : u <= / 4096 / 4096) by (replace (/ 4096 / 4096) with (bpow radix2 (-24)) by (change (bpow radix2 (-24)) with (/ 16777216); field); apply bpow_le; lia).
  assert (UL : 2 * u = ulp1) by (symmetry; apply ulp1_u).
  split; [exact F1|]. split; [repeat constructor; destruct Hv as [-> | ->]; auto|]. split; [cbn; lia|].
  assert (B : 24 <= stage_size (f_ofZE 1 0) [v] <= 25).
  { unfold stage_size, reals. cbn [map Rsum]. rewrite R1. destruct Hv as [-> | ->]; [rewrite R1|rewrite R0]; rewrite ?Rabs_R1, ?Rabs_R0; lra. }
  split; [lra|]. change (length [v]) with 1%nat. change (INR 1) with 1. set (S := stage_size (f_ofZE 1 0) [v]) in *. nra.
Qed.
Example C16_end_ex : let g := stage64 crlibm (LMulti 2) [ofZ 1; ofZ 0] in let M := [[ofZ 0 : F64 crlibm]] in
  gb_predict g (ll M) = Ok [8%nat] /\ exists s, exact_raw ln g M [[ofZ 0; ofZ 1]] 0 0 2 s /\ leads_by 1 s 1.
Proof.
  intros g M. pose proof u_le as U4. destruct (real_ofZ 1 ltac:(cbn; lia)) as [R1 F1]. destruct (real_ofZ 0 ltac:(cbn; lia)) as [R0 F0].
  set (s := [ln (clip64 0) + 1 * (1 + 0); ln (clip64 1) + 1 * (0 + 0)]).
  assert (HS : exact_raw ln g M [[ofZ 0; ofZ 1]] 0 0 2 s).
  { split; [reflexivity|]. unfold s. intros k x Hx. destruct k as [|[|k]]; [| |destruct k; discriminate]; injection Hx as <-.
    - exists (f_ofZE 0 0), [f_ofZE 1 0]. split; [reflexivity|]. split; [repeat constructor; eexists _, _; split; [reflexivity|]; split; reflexivity|]. unfold reals. cbn [map Rsum gb_lr g stage64]. change (@ofZ (F64 crlibm) 1) with (f_ofZE 1 0). rewrite R0, R1. reflexivity.
    - exists (f_ofZE 1 0), [f_ofZE 0 0]. split; [reflexivity|]. split; [repeat constructor; eexists _, _; split; [reflexivity|]; split; reflexivity|]. unfold reals. cbn [map Rsum gb_lr g stage64]. change (@ofZ (F64 crlibm) 1) with (f_ofZE 1 0). rewrite R0, R1. reflexivity. }
  assert (LD : leads_by 1 s 1).
  { pose proof eps_pos. pose proof eps_small. destruct top_bounds as [T1 T2]. assert (0 < / 2 ^ 23) by (apply Rinv_0_lt_compat, pow_lt; lra).
    assert (C0 : clip64 0 = eps) by (unfold clip64; rewrite Rmin_left, Rmax_left by lra; auto). assert (C1 : clip64 1 = top64) by (unfold clip64; rewrite Rmin_right, Rmax_right by lra; auto).
    assert (E1 : ln eps <= - (6)). { rewrite <- (ln_exp (- (6))). apply ln_le; auto. rewrite exp_Ropp. apply Rle_trans with (/ 1000000); [lra|]. apply Rinv_le; [apply exp_pos|]. pose proof exp_le_3 as E3.
      replace 6 with (1 + 1 + 1 + 1 + 1 + 1) by ring. rewrite !exp_plus. pose proof (exp_pos 1). set (t := exp 1) in *. assert (t * t <= 9) by nra. assert (0 <= t * t) by nra. replace (t * t * t * t * t * t) with ((t * t) * (t * t) * (t * t)) by ring. set (w := t * t) in *. assert (w * w <= 81) by nra. nra. }
    assert (E2 : - (1) <= ln top64). { rewrite <- (ln_exp (- (1))). apply ln_le; [apply exp_pos|]. rewrite exp_Ropp. apply Rle_trans with (/ 2); [|lra]. apply Rinv_le; [lra|]. pose proof (exp_ineq1_le 1). lra. }
    eexists. split; [reflexivity|]. intros [|[|j]] y Nj Hy; [|congruence|destruct j; discriminate]. injection Hy as <-. rewrite C0, C1. lra. }
  assert (NB : 2 * nb_error u u 2 + 4 * / 64 <= / 8).
  { assert (U : u <= / 4096 / 4096) by (replace (/ 4096 / 4096) with (bpow radix2 (-24)) by (change (bpow radix2 (-24)) with (/ 16777216); field); apply bpow_le; lia).
    unfold nb_error. rewrite ulp1_u. change (INR 2) with 2. pose proof u_pos. lra. }
  split; [|exists s; auto].
  destruct (C16_multi_label_float crlibm u u (/ 64) nat g M [[ofZ 0; ofZ 1]] (fun _ => Ok [[ofZ 0; ofZ 1]]) 1 2 cr_exp_accurate cr_log_accurate) as (out & Eo & Lo & HL); try lra; try reflexivity.
  - cbn. lia.
  - apply (stage64_fits crlibm (LMulti 2) [ofZ 1; ofZ 0]). discriminate.
  - split; [reflexivity|repeat constructor].
  - constructor; [|constructor]. constructor; [exact F0|constructor; [exact F1|constructor]].
  - intros i k qs Hi Hk Hq. destruct (stage64_pred _ _ _ i k qs Hi Hq) as (v & Hv & ->). apply stage64_good. destruct k as [|[|k]]; [| |lia]; injection Hv as <-; auto.
  - rewrite Eo. destruct out as [|y [|]]; try discriminate. assert (Q : nth_error [7; 8]%nat 1 = Some y).
    { apply (HL 0%nat y s 1%nat eq_refl HS). destruct LD as (x & Hx & HX). exists x. split; auto. intros j w Nj Hw. specialize (HX j w Nj Hw). lra. }
    injection Q as <-. reflexivity.
Qed.
Example C16_binary_end_ex : let g := stage64 crlibm LBinary [ofZ 1] in let M := [[ofZ 0 : F64 crlibm]] in
  gb_fits g M 1 1 /\ gb_loss g = LBinary /\ (forall i qs, (i < 1)%nat -> stage_predictions g M i 0 qs -> good_stages u (/ 64) (gb_lr g) qs) /\
  exact_raw logit g M [[ofZ 0; ofZ 1]] 0 1 1 [logit (clip64 1) + 1 * (1 + 0)] /\ 8 * (2 * u + 5 * ulp1 + 2 * / 64) <= logit (clip64 1) + 1 * (1 + 0).
Proof.
  intros g M. destruct (real_ofZ 1 ltac:(cbn; lia)) as [R1 F1]. split; [apply (stage64_fits crlibm LBinary [ofZ 1]); discriminate|]. split; [reflexivity|]. split; [|split].
  - intros i qs Hi Hq. destruct (stage64_pred _ _ _ i 0 qs Hi Hq) as (v & Hv & ->). apply stage64_good. injection Hv as <-. auto.
  - split; [reflexivity|]. intros k x Hx. destruct k as [|k]; [|destruct k; discriminate]. injection Hx as <-. exists (f_ofZE 1 0), [f_ofZE 1 0]. split; [reflexivity|]. split; [repeat constructor; eexists _, _; split; [reflexivity|]; split; reflexivity|]. unfold reals. cbn [map Rsum gb_lr g stage64]. change (@ofZ (F64 crlibm) 1) with (f_ofZE 1 0). rewrite R1. reflexivity.
  - assert (U : u <= / 4096 / 4096) by (replace (/ 4096 / 4096) with (bpow radix2 (-24)) by (change (bpow radix2 (-24)) with (/ 16777216); field); apply bpow_le; lia). rewrite ulp1_u.
    assert (0 <= logit (clip64 1)); [|lra]. destruct top_bounds as [T1 T2]. assert (0 < / 2 ^ 23) by (apply Rinv_0_lt_compat, pow_lt; lra). pose proof eps_small.
    assert (C1 : clip64 1 = top64) by (unfold clip64; rewrite Rmin_right, Rmax_right by lra; auto). rewrite C1. unfold logit. rewrite <- ln_1. apply ln_le; [lra|].
    apply Rmult_le_reg_r with (1 - top64); [lra|]. replace (top64 / (1 - top64) * (1 - top64)) with top64 by (field; lra). lra.
Qed.
Example C15_label_ex : leads_by (4 * / 8) [1; 4; - 2] 1.
Proof. exists 4. split; [reflexivity|]. intros [|[|[|j]]] y N H; try congruence; [injection H as <-; lra|injection H as <-; lra|destruct j; discriminate]. Qed.
