(** C56: fastText predictions on doubles, from the text to the probabilities. *)
From Coq Require Import String Reals Lia Lra.
From Flocq Require Import Core BinarySingleNaN.
From Verif Require Import Model.Py Model.Arith Model.F64 Model.XR Model.Utils Model.Base Model.Text Model.FastText.
From Verif Require Import Spec.Matrix Spec.Reals Spec.Libm Spec.Text Spec.Ensembles Spec.FastText Spec.Rounding.
From Verif Require Import Proofs.Lib Proofs.Laws Proofs.Round Proofs.Unit Proofs.Arrays Proofs.RealLib Proofs.CRLibm Proofs.Text Proofs.FastText Proofs.SumErr Proofs.DotErr Proofs.NormErr Proofs.ExpErr Proofs.LseErr Proofs.BoostErr Proofs.Pairwise.
From Verif Require Import Props.Text Props.FastText Props.Accuracy Props.Probabilities Props.SentenceAccuracy Props.FastTextAccuracy.
Import ListNotations.
Local Open Scope R_scope.

(** The exact mean of the vectors [vs], and the exact probabilities it gives. *)
Definition mean_vector (vs : list (list f64)) (dim : nat) : list R :=
  map (fun j => Rmean (map (fun v => nth j (reals v) 0) vs)) (seq 0 dim).
Definition exact_probs (vs output : list (list f64)) (dim : nat) : list R :=
  softmax (map (fun w => Rdot (mean_vector vs dim) (reals w)) output).
(** Finite numbers of size at most [B]. *)
Definition bounded_by (B : R) (l : list f64) : Prop := Forall (fun x => is_finite x = true /\ Rabs (real x) <= B) l.
(** Error of one component of the mean of n vectors of size B, and of a score
    of dimension dim with weights of size W. *)
Definition vector_error (n : nat) (B : R) : R := (INR n + 1) * ulp1 * B + tiny.
Definition text_error (dim n : nat) (B W : R) : R :=
  INR dim * W * vector_error n B + ((INR dim + 1) * ulp1 * (INR dim * W * (B + vector_error n B)) + INR dim * tiny).

Lemma mean_le : forall B l, 0 <= B -> Forall (fun x => 0 <= x <= B) l -> l <> [] -> 0 <= Rsum l <= INR (length l) * B /\ 0 <= Rmean l <= B.
Proof.
  intros B l HB H N. assert (S : 0 <= Rsum l <= INR (length l) * B).
  { clear N. induction H as [|x l Hx H IH]; [cbn; lra|]. cbn [Rsum length]. rewrite S_INR. lra. }
  split; [exact S|]. unfold Rmean. assert (P : 0 < INR (length l)) by (apply lt_0_INR; destruct l; [congruence|cbn; lia]).
  split; [apply Rmult_le_pos; [lra|left; apply Rinv_0_lt_compat; exact P]|]. apply Rmult_le_reg_r with (INR (length l)); [exact P|].
  unfold Rdiv. rewrite Rmult_assoc, Rinv_l by lra. lra.
Qed.
Lemma Rdot_near : forall W D x y w, 0 <= W -> 0 <= D -> Forall2 (fun a b => Rabs (a - b) <= D) x y -> Forall (fun c => Rabs c <= W) w ->
  Rabs (Rdot x w - Rdot y w) <= INR (length x) * W * D.
Proof.
  intros W D x y w HW HD H. revert w. induction H as [|a b x y Hab H IH]; intros w Hw; cbn [Rdot length]; [rewrite Rminus_eq_0, Rabs_R0; cbn [INR]; lra|].
  assert (WD : 0 <= W * D) by (apply Rmult_le_pos; auto).
  destruct Hw as [|c w Hc Hw]; [rewrite Rminus_eq_0, Rabs_R0; rewrite Rmult_assoc; apply Rmult_le_pos; [apply pos_INR|auto]|].
  rewrite S_INR. replace (a * c + Rdot x w - (b * c + Rdot y w)) with ((a - b) * c + (Rdot x w - Rdot y w)) by ring.
  eapply Rle_trans; [apply Rabs_triang|]. rewrite Rabs_mult. specialize (IH w Hw).
  assert (Rabs (a - b) * Rabs c <= D * W) by (apply Rmult_le_compat; auto using Rabs_pos). lra.
Qed.
Lemma Rabsdot_le : forall W D x w, 0 <= W -> 0 <= D -> Forall (fun a => Rabs a <= D) x -> Forall (fun c => Rabs c <= W) w ->
  0 <= Rabsdot x w <= INR (length x) * W * D.
Proof.
  intros W D x w HW HD H. revert w. unfold Rabsdot. assert (WD : 0 <= W * D) by (apply Rmult_le_pos; auto).
  induction H as [|a x Ha H IH]; intros w Hw; cbn [Rdot map length]; [cbn [INR]; lra|].
  assert (0 <= INR (S (length x)) * W * D) by (rewrite Rmult_assoc; apply Rmult_le_pos; [apply pos_INR|auto]).
  destruct Hw as [|c w Hc Hw]; cbn [map Rdot]; [lra|]. rewrite S_INR. specialize (IH w Hw).
  assert (0 <= Rabs a * Rabs c <= D * W) by (split; [apply Rmult_le_pos; apply Rabs_pos|apply Rmult_le_compat; auto using Rabs_pos]). lra.
Qed.
Lemma within_lip : forall e a p s t, 0 <= e <= / 4 -> s <> [] -> within a p (softmax t) -> Forall2 (fun x y => Rabs (x - y) <= e) t s -> within (a + 4 * e) p (softmax s).
Proof.
  intros e a p s t He N W H. pose proof (softmax_lip _ _ e He H) as LP.
  assert (D1 : Forall (fun x => x <= 1) (softmax s)).
  { destruct (softmax_dist s N) as [D1 _]. eapply Forall_impl; [|exact D1]. cbv beta. intros; lra. }
  unfold within in *. revert D1 LP W. generalize (softmax s) (softmax t). clear - He. intros q r D1 LP W. revert q D1 LP.
  induction W as [|x r0 p r [Fx Bx] W IH]; intros t D1 LP; inversion LP as [|? b ? t' [B0 BL] LP']; subst; [constructor|]. constructor; [|apply IH; [inversion D1; auto|auto]].
  split; [exact Fx|]. inversion D1; subst. replace (real x - b) with ((real x - r0) + (r0 - b)) by ring.
  eapply Rle_trans; [apply Rabs_triang|]. apply Rplus_le_compat; [exact Bx|]. eapply Rle_trans; [exact BL|]. rewrite <- (Rmult_1_r (4 * e)) at 2. apply Rmult_le_compat_l; lra.
Qed.

(** C56.  A text with at least one known word, a supervised model whose word
    vectors are of size at most B and whose output weights are of size at most
    W: [predict] returns the labels and probabilities of at most k positions,
    and each probability is the exact softmax probability of the exact mean of
    the word vectors, up to 4 n d + (11 n + 2) ulps and four times the error of
    the scores. *)
Theorem C56_end_float_partial : forall m d (U : textlib) (f : fasttext (F64 m)) labels output text ws ks vs N dim B W (k : Z) thr,
  exp_accurate m d -> 0 <= d ->
  f_sup f = Some (lit "softmax", labels, output) -> length labels = length output -> output <> [] ->
  (Z.of_nat (length output) <= 2 ^ 47)%Z -> INR (length output) * d <= / 8 ->
  x_space U 10 = true -> ~ In 10%Z text -> words (x_space U) text ws ->
  restricted (f_words f) (ws ++ [lit "</s>"]) ks -> ks <> [] ->
  rect (f_input f) N dim -> Forall2 (vector_of (f_words f) (f_input f)) ks vs ->
  (Z.of_nat (length vs) <= 2 ^ 52)%Z -> (Z.of_nat dim < 2 ^ 52)%Z ->
  0 <= B <= bpow radix2 900 -> 0 <= W -> Forall (bounded_by B) vs -> Forall (bounded_by W) output ->
  text_error dim (length vs) B W <= / 4 -> (0 <= k)%Z ->
  exists p I ls ps, ft_predict U f (One text) k thr = Ok (ls, ps) /\
    within (ft_error d (text_error dim (length vs) B W) (length output)) p (exact_probs vs output dim) /\
    @top_k (F64 m) p thr (Z.to_nat k) I /\
    Forall2 (fun i l => nth_error labels i = Some l) I ls /\ Forall2 (fun i x => nth_error p i = Some x) I ps.
Proof.
  intros m d U f labels output text ws ks vs N dim B W k thr HA Hd HF LL NO LK Hnd HS HN HW HR NK RI HV BK BD HB HWp FV FW HE Hk.
  change (num (F64 m)) with f64 in *.
  assert (NV : vs <> []) by (apply Forall2_len in HV; intros ->; destruct ks; [congruence|discriminate]).
  assert (U0 : 0 < ulp1) by apply bpow_gt_0. assert (T0 : 0 < tiny) by apply bpow_gt_0.
  assert (AB : forall j, Forall (fun x => 0 <= x <= B) (map (fun v => Rabs (nth j (reals v) 0)) vs)).
  { intro j. apply Forall_forall. intros x Hx. apply in_map_iff in Hx. destruct Hx as (v & <- & Hv). split; [apply Rabs_pos|].
    rewrite Forall_forall in FV. specialize (FV v Hv). clear - FV HB. revert j. unfold reals. induction FV as [|x v [_ Hx] FV IH]; intros [|j]; cbn [map nth]; rewrite ?Rabs_R0; try lra; auto. }
  assert (NM : forall j, map (fun v => Rabs (nth j (reals v) 0)) vs <> []) by (intros j Q; apply map_eq_nil in Q; auto).
  destruct (C55_accuracy_float m U f _ text ws ks vs N dim HF HS HN HW HR NK RI HV BK) as (v & EV & LV & BV).
  - eapply Forall_impl; [|exact FV]. intros l H. eapply Forall_impl; [|exact H]. cbv beta. tauto.
  - intros j Hj. destruct (mean_le B _ (proj1 HB) (AB j) (NM j)) as [[_ S] _]. rewrite map_length in S. eapply Rle_trans; [exact S|].
    apply Rle_trans with (bpow radix2 52 * bpow radix2 900); [|rewrite <- bpow_plus; apply bpow_le; lia].
    apply Rmult_le_compat; [apply pos_INR|apply HB| |apply HB]. rewrite INR_IZR_INZ. change (bpow radix2 52) with (IZR (2 ^ 52)). apply IZR_le. exact BK.
  - change (num (F64 m)) with f64 in *. set (D := vector_error (length vs) B) in *.
    assert (D0 : 0 <= D). { unfold D, vector_error. pose proof (pos_INR (length vs)). assert (0 <= (INR (length vs) + 1) * ulp1 * B) by (apply Rmult_le_pos; [apply Rmult_le_pos; lra|lra]). lra. }
    assert (CL : forall j x, nth_error v j = Some x -> is_finite x = true /\ Rabs (real x - nth j (mean_vector vs dim) 0) <= D /\ Rabs (real x) <= B + D).
    { intros j x Hj. destruct (BV j x Hj) as [Fx Bx]. split; [exact Fx|].
      assert (Lj : (j < dim)%nat) by (rewrite <- LV; apply nth_error_Some; congruence).
      assert (EM : nth j (mean_vector vs dim) 0 = Rmean (map (fun v => nth j (reals v) 0) vs)).
      { apply nth_error_nth. unfold mean_vector. rewrite nth_error_map'. rewrite (nth_error_nth' _ 0%nat) by (rewrite seq_length; auto). rewrite seq_nth by auto. reflexivity. }
      rewrite EM. destruct (mean_le B _ (proj1 HB) (AB j) (NM j)) as [_ [M0 M1]].
      assert (Q : Rabs (real x - Rmean (map (fun v => nth j (reals v) 0) vs)) <= D).
      { eapply Rle_trans; [exact Bx|]. unfold D, vector_error. apply Rplus_le_compat_r. apply Rmult_le_compat_l; [|exact M1]. pose proof (pos_INR (length vs)). apply Rmult_le_pos; lra. }
      split; [exact Q|]. set (mu := Rmean (map (fun v => nth j (reals v) 0) vs)) in *. replace (real x) with ((real x - mu) + mu) by ring.
      eapply Rle_trans; [apply Rabs_triang|]. rewrite Rplus_comm. apply Rplus_le_compat; [|exact Q].
      apply Rle_trans with (Rmean (map (fun v => Rabs (nth j (reals v) 0)) vs)); [|exact M1].
      unfold mu, Rmean. rewrite !map_length. unfold Rdiv. rewrite Rabs_mult. assert (P : 0 < / INR (length vs)) by (apply Rinv_0_lt_compat, lt_0_INR; destruct vs; [congruence|cbn; lia]).
      rewrite (Rabs_pos_eq (/ _)) by lra. apply Rmult_le_compat_r; [lra|]. clear. induction vs as [|y vs IH]; cbn [map Rsum]; [rewrite Rabs_R0; lra|].
      eapply Rle_trans; [apply Rabs_triang|]. lra. }
    assert (FvA : all_finite v) by (apply Forall_forall; intros x Hx; apply In_nth_error in Hx; destruct Hx as [j Hj]; apply (CL j x Hj)).
    assert (FvB : Forall (fun a => Rabs a <= B + D) (reals v)).
    { apply Forall_forall. intros a Ha. apply in_map_iff in Ha. destruct Ha as (x & <- & Hx). apply In_nth_error in Hx. destruct Hx as [j Hj]. apply (CL j x Hj). }
    assert (FvM : Forall2 (fun a b => Rabs (a - b) <= D) (reals v) (mean_vector vs dim)).
    { apply Forall2_nth_error. split; [unfold reals, mean_vector; rewrite !map_length, seq_length; exact LV|].
      intros j a b Ha Hb. unfold reals in Ha. rewrite nth_error_map' in Ha. destruct (nth_error v j) as [x|] eqn:Hj; [|discriminate]. injection Ha as <-.
      destruct (CL j x Hj) as (_ & Q & _). rewrite (nth_error_nth _ _ 0 Hb) in Q. exact Q. }
    assert (RW : forall w, bounded_by W w -> all_finite w /\ Forall (fun c => Rabs c <= W) (reals w)).
    { intros w H. split; [eapply Forall_impl; [|exact H]; cbv beta; tauto|]. unfold reals. apply Forall_map. eapply Forall_impl; [|exact H]. cbv beta. tauto. }
    set (e1 := (INR dim + 1) * ulp1 * (INR dim * W * (B + D)) + INR dim * tiny). set (e2 := INR dim * W * D).
    assert (ES : text_error dim (length vs) B W = e2 + e1) by reflexivity. rewrite ES in *.
    pose proof (pos_INR dim) as ID. assert (X0 : 0 <= INR dim * W * (B + D)) by (apply Rmult_le_pos; [apply Rmult_le_pos; auto|lra]).
    assert (E2 : 0 <= e2) by (unfold e2; apply Rmult_le_pos; auto; apply Rmult_le_pos; auto).
    assert (E1 : 0 <= e1). { unfold e1. assert (0 <= INR dim * tiny) by (apply Rmult_le_pos; lra). assert (0 <= (INR dim + 1) * ulp1 * (INR dim * W * (B + D))) by (apply Rmult_le_pos; auto; apply Rmult_le_pos; lra). lra. }
    assert (XB : INR dim * W * (B + D) <= bpow radix2 1000).
    { assert (QA : ulp1 * (INR dim * W * (B + D)) <= / 4).
      { apply Rle_trans with ((INR dim + 1) * (ulp1 * (INR dim * W * (B + D)))).
        - rewrite <- (Rmult_1_l (ulp1 * _)) at 1. apply Rmult_le_compat_r; [apply Rmult_le_pos; lra|lra].
        - assert (0 <= INR dim * tiny) by (apply Rmult_le_pos; lra). unfold e1 in HE. lra. }
      apply Rmult_le_reg_l with ulp1; [exact U0|]. eapply Rle_trans; [exact QA|].
      apply Rle_trans with (bpow radix2 0); [change (bpow radix2 0) with 1; lra|]. unfold ulp1. rewrite <- bpow_plus. apply bpow_le. lia. }
    assert (TS : tame_scores v output e1).
    { split; [exact FvA|]. rewrite LV. split; [exact BD|]. eapply Forall_impl; [|exact FW]. intros w Hw. destruct (RW w Hw) as [Fw Bw]. split; [exact Fw|].
      destruct (Rabsdot_le W (B + D) (reals v) (reals w) HWp ltac:(lra) FvB Bw) as [R0 R1]. assert (LR : length (reals v) = dim) by (unfold reals; rewrite map_length; exact LV). rewrite LR in R1.
      split; [lra|]. unfold e1. apply Rplus_le_compat_r. apply Rmult_le_compat_l; [apply Rmult_le_pos; lra|exact R1]. }
    destruct (C56_accuracy_float_partial m d e1 U f labels output text v k thr HA Hd ltac:(lra) HF LL NO LK Hnd EV TS Hk) as (p & I & ls & ps & E & WI & R).
    exists p, I, ls, ps. split; [exact E|]. split; [|exact R].
    replace (ft_error d (e2 + e1) (length output)) with (ft_error d e1 (length output) + 4 * e2) by (unfold ft_error; ring).
    unfold exact_probs. eapply within_lip; [lra| |exact WI|].
    + destruct output; [congruence|discriminate].
    + clear - FW FvM RW HWp D0 LV. unfold e2. assert (LR : length (reals v) = dim) by (unfold reals; rewrite map_length; exact LV).
      induction FW as [|w output Hw FW IH]; cbn [map]; constructor; auto.
      pose proof (Rdot_near W D _ _ (reals w) HWp D0 FvM (proj2 (RW w Hw))) as Q. rewrite LR in Q. exact Q.
Qed.
Print Assumptions C56_end_float_partial.

(** C56.  The first label returned is that of the most likely class of the exact
    model, when its exact probability leads by more than twice the error and
    exceeds the threshold by more than the error. *)
Theorem C56_end_label_float_partial : forall m d (U : textlib) (f : fasttext (F64 m)) labels output text ws ks vs N dim B W (k : Z) thr i l r,
  exp_accurate m d -> 0 <= d ->
  f_sup f = Some (lit "softmax", labels, output) -> length labels = length output -> output <> [] ->
  (Z.of_nat (length output) <= 2 ^ 47)%Z -> INR (length output) * d <= / 8 ->
  x_space U 10 = true -> ~ In 10%Z text -> words (x_space U) text ws ->
  restricted (f_words f) (ws ++ [lit "</s>"]) ks -> ks <> [] ->
  rect (f_input f) N dim -> Forall2 (vector_of (f_words f) (f_input f)) ks vs ->
  (Z.of_nat (length vs) <= 2 ^ 52)%Z -> (Z.of_nat dim < 2 ^ 52)%Z ->
  0 <= B <= bpow radix2 900 -> 0 <= W -> Forall (bounded_by B) vs -> Forall (bounded_by W) output ->
  text_error dim (length vs) B W <= / 4 -> (1 <= k)%Z ->
  nth_error labels i = Some l -> nth_error (exact_probs vs output dim) i = Some r -> is_finite (thr : f64) = true ->
  real thr + ft_error d (text_error dim (length vs) B W) (length output) < r ->
  (forall j q, j <> i -> nth_error (exact_probs vs output dim) j = Some q -> q + 2 * ft_error d (text_error dim (length vs) B W) (length output) < r) ->
  exists x ls ps, ft_predict U f (One text) k thr = Ok (l :: ls, x :: ps) /\
    is_finite (x : f64) = true /\ Rabs (real x - r) <= ft_error d (text_error dim (length vs) B W) (length output).
Proof.
  intros m d U f labels output text ws ks vs N dim B W k thr i l r HA Hd HF LL NO LK Hnd HS HN HW HR NK RI HV BK BD HB HWp FV FW HE Hk Hl Hr Ft Ht HM.
  destruct (C56_end_float_partial m d U f labels output text ws ks vs N dim B W k thr HA Hd HF LL NO LK Hnd HS HN HW HR NK RI HV BK BD HB HWp FV FW HE ltac:(lia)) as (p & I & ls & ps & E & WI & TK & Fl & Fp).
  destruct (first_label m labels _ p thr k I ls ps _ i l r WI TK Hk Fl Fp Hl Hr Ft Ht HM) as (x & ls' & ps' & -> & -> & Fx & Bx). eauto 10.
Qed.
Print Assumptions C56_end_label_float_partial.

(** "dog  cow cat" in the example model: three vectors, three labels; the exact
    scores are 2, 3 and 2. *)
Example C56_end_ex : exists p I ls ps, ft_predict ex_lib (ex_ft (A:=F64 crlibm)) (One (lit "dog  cow cat")) 2 zero = Ok (ls, ps) /\
  within (/ 100) p (softmax [2; 3; 2]) /\ @top_k (F64 crlibm) p zero 2 I.
Proof.
  assert (FI : forall n, (Z.abs n <= 2 ^ 53)%Z -> is_finite (f_ofZE n 0) = true) by (intros; apply real_ofZ; auto).
  assert (U0 : 0 < ulp1 <= / 1048576) by (split; [apply bpow_gt_0|]; change (/ 1048576) with (bpow radix2 (-20)); apply bpow_le; lia).
  assert (T0 : 0 < tiny <= / 1048576) by (split; [apply bpow_gt_0|]; change (/ 1048576) with (bpow radix2 (-20)); apply bpow_le; lia).
  assert (TE : 0 <= text_error 2 3 5 1 <= / 1024).
  { unfold text_error, vector_error. cbn [INR]. split; [|nra]. repeat apply Rplus_le_le_0_compat; repeat apply Rmult_le_pos; lra || nra. }
  destruct (C56_end_float_partial crlibm u ex_lib (ex_ft (A:=F64 crlibm)) [lit "a"; lit "b"; lit "c"] [[f_ofZE 1 0; f_ofZE 0 0]; [f_ofZE 0 0; f_ofZE 1 0]; [f_ofZE 1 0; f_ofZE 0 0]]
    (lit "dog  cow cat") [lit "dog"; lit "cow"; lit "cat"] [lit "dog"; lit "cat"; lit "</s>"] [[f_ofZE 3 0; f_ofZE 5 0]; [f_ofZE 1 0; f_ofZE 2 0]; [f_ofZE 2 0; f_ofZE 2 0]] 4 2 5 1 2 (f_ofZE 0 0)) as (p & I & ls & ps & E & WI & TK & _).
  - exact cr_exp_accurate.
  - apply u_le.
  - reflexivity.
  - reflexivity.
  - discriminate.
  - cbn; lia.
  - cbn [length INR]. pose proof u_le. lra.
  - reflexivity.
  - cbn. intuition discriminate.
  - apply (proj1 (words_split ex_lib 100 (lit "dog  cow cat") ltac:(cbn; lia))).
  - apply (restricted_filter' (f_words (ex_ft (A:=F64 crlibm)))).
  - discriminate.
  - split; [reflexivity|repeat constructor].
  - constructor; [exists 1%nat|constructor; [exists 0%nat|constructor; [exists 3%nat|constructor]]]; (split; [|reflexivity]); (split; [reflexivity|]);
      intros [|[|[|j]]] Hj; try lia; cbn; discriminate.
  - cbn; lia.
  - lia.
  - split; [lra|]. apply Rle_trans with (bpow radix2 3); [cbn; lra|apply bpow_le; lia].
  - lra.
  - repeat constructor; try (apply FI; cbn; lia); rewrite (fun n H => proj1 (real_ofZ n H)) by (cbn; lia); rewrite Rabs_pos_eq by lra; lra.
  - repeat constructor; try (apply FI; cbn; lia); rewrite (fun n H => proj1 (real_ofZ n H)) by (cbn; lia); rewrite Rabs_pos_eq by lra; lra.
  - cbn [length]. lra.
  - lia.
  - exists p, I, ls, ps. split; [exact E|]. split; [|exact TK].
    assert (P : exact_probs [[f_ofZE 3 0; f_ofZE 5 0]; [f_ofZE 1 0; f_ofZE 2 0]; [f_ofZE 2 0; f_ofZE 2 0]] [[f_ofZE 1 0; f_ofZE 0 0]; [f_ofZE 0 0; f_ofZE 1 0]; [f_ofZE 1 0; f_ofZE 0 0]] 2 = softmax [2; 3; 2]).
    { unfold exact_probs, mean_vector, Rmean, reals. cbn [seq map nth length INR Rsum Rdot]. rewrite !(fun n H => proj1 (real_ofZ n H)) by (cbn; lia).
      f_equal. f_equal; [field|]. f_equal; [field|]. f_equal. field. }
    rewrite P in WI. cbn [length] in WI. unfold within in *. eapply Forall2_imp; [|exact WI]. cbv beta. intros v x [F Q]. split; [exact F|]. eapply Rle_trans; [exact Q|].
    unfold ft_error. cbn [INR]. rewrite ulp1_u. assert (u <= / 1048576) by (change (/ 1048576) with (bpow radix2 (-20)); unfold u; apply bpow_le; lia). lra.
Qed.
(** ... and the second label leads clearly. *)
Example C56_end_label_ex : exists r, nth_error (softmax [2; 3; 2]) 1 = Some r /\ 4 / 10 < r /\
  forall j q, j <> 1%nat -> nth_error (softmax [2; 3; 2]) j = Some q -> q + 1 / 10 < r.
Proof.
  unfold softmax. cbn [map Rsum nth_error]. replace 3 with (1 + 2) by ring. rewrite exp_plus.
  pose proof (exp_pos 2) as Z. pose proof (exp_ineq1 1 ltac:(lra)) as Y. set (t := exp 1) in *. clearbody t. set (w := exp 2) in *. clearbody w.
  replace (w + (t * w + (w + 0))) with ((t + 2) * w) by ring.
  assert (N1 : t + 2 <> 0) by lra. assert (N2 : w <> 0) by lra.
  replace (t * w / ((t + 2) * w)) with (1 - 2 * / (t + 2)) by (field; auto).
  replace (w / ((t + 2) * w)) with (/ (t + 2)) by (field; auto).
  assert (/ (t + 2) <= / 4) by (apply Rinv_le_contravar; lra).
  exists (1 - 2 * / (t + 2)). split; [reflexivity|]. split; [lra|]. intros j q Hj. destruct j as [|[|[|j]]]; cbn [nth_error]; [..|destruct j; discriminate]; try congruence; intros [= <-]; lra.
Qed.
