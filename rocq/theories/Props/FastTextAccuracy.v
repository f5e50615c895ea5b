(** C56: fastText predictions on doubles against exact probabilities. *)
From Coq Require Import String Reals Lia Lra.
From Flocq Require Import Core BinarySingleNaN.
From Verif Require Import Model.Py Model.Arith Model.F64 Model.XR Model.Utils Model.Base Model.Text Model.FastText.
From Verif Require Import Spec.Matrix Spec.Reals Spec.Libm Spec.Text Spec.Ensembles Spec.FastText Spec.Rounding.
From Verif Require Import Proofs.Lib Proofs.Laws Proofs.Round Proofs.Unit Proofs.Arrays Proofs.RealLib Proofs.CRLibm Proofs.Text Proofs.FastText Proofs.SumErr Proofs.DotErr Proofs.NormErr Proofs.ExpErr Proofs.LseErr Proofs.BoostErr Proofs.Pairwise.
From Verif Require Import Props.Text Props.FastText Props.Accuracy Props.Probabilities Props.SentenceAccuracy.
Import ListNotations.
Local Open Scope R_scope.

(** The exact probabilities of the labels, given the sentence vector. *)
Definition label_probs (v : list f64) (output : list (list f64)) : list R :=
  softmax (map (fun w => Rdot (reals v) (reals w)) output).
(** Finite vectors, far from overflow, whose scores are computed up to [e]. *)
Definition tame_scores (v : list f64) (output : list (list f64)) (e : R) : Prop :=
  all_finite v /\ (Z.of_nat (length v) < 2 ^ 52)%Z /\
  Forall (fun w => all_finite w /\ Rabsdot (reals v) (reals w) <= bpow radix2 1000 /\
    (INR (length v) + 1) * ulp1 * Rabsdot (reals v) (reals w) + INR (length v) * tiny <= e) output.
Definition ft_error (d e : R) (K : nat) : R := 4 * (INR K * d) + (11 * INR K + 2) * ulp1 + 4 * e.

Lemma Rdot_abs : forall x y, Rabs (Rdot x y) <= Rabsdot x y.
Proof.
  unfold Rabsdot. induction x as [|a x IH]; intros [|b y]; cbn [Rdot map]; rewrite ?Rabs_R0; try lra.
  eapply Rle_trans; [apply Rabs_triang|]. rewrite Rabs_mult. specialize (IH y). lra.
Qed.
Lemma ft_probs : forall m d e (v : list (F64 m)) (output : list (list (F64 m))), exp_accurate m d -> 0 <= d -> 0 <= e <= / 4 ->
  output <> [] -> (Z.of_nat (length output) <= 2 ^ 47)%Z -> INR (length output) * d <= / 8 -> tame_scores v output e ->
  exists p, ft_sfmax (scores v output) = Ok p /\ within (ft_error d e (length output)) p (label_probs v output).
Proof.
  intros m d e v output HA Hd He N LK Hnd (Fv & Lv & HT). change (num (F64 m)) with f64 in *.
  assert (G : Forall (fun x : f64 => is_finite x = true /\ Rabs (real x) <= huge) (@scores (F64 m) v output) /\
              Forall2 (fun s t => Rabs (s - t) <= e) (reals (@scores (F64 m) v output)) (map (fun w => Rdot (reals v) (reals w)) output)).
  { clear - Fv Lv HT He. unfold scores. induction HT as [|w output (Fw & Bw & Ew) HT [IH1 IH2]]; [split; constructor|].
    assert (BB : bpow radix2 1000 + 1 <= huge).
    { assert (bpow radix2 0 <= bpow radix2 1000) by (apply bpow_le; lia). change (bpow radix2 0) with 1 in *.
      assert (bpow radix2 1000 * 2 <= huge) by (unfold huge; change 2 with (bpow radix2 1); rewrite <- bpow_plus; apply bpow_le; lia). lra. }
    destruct (dot_error m v w Fv Fw Lv) as [F E]; [eapply Rle_trans; [exact Bw|]; apply bpow_le; lia|].
    assert (Q : Rabs (real (@dotp (F64 m) v w) - Rdot (reals v) (reals w)) <= e) by lra.
    split; [constructor; [|exact IH1]|cbn [map reals]; constructor; [exact Q|exact IH2]].
    split; [exact F|]. replace (real (@dotp (F64 m) v w)) with ((real (@dotp (F64 m) v w) - Rdot (reals v) (reals w)) + Rdot (reals v) (reals w)) by ring.
    eapply Rle_trans; [apply Rabs_triang|]. pose proof (Rdot_abs (reals v) (reals w)). lra. }
  destruct G as [G1 G2].
  assert (LS : length (@scores (F64 m) v output) = length output) by apply map_length.
  destruct (C58_accuracy_float m d (@scores (F64 m) v output) HA Hd) as (p & Ep & W).
  - intro Q. apply N. apply (f_equal (@length _)) in Q. rewrite LS in Q. destruct output; [reflexivity|discriminate].
  - rewrite LS. exact LK.
  - rewrite LS. exact Hnd.
  - exact G1.
  - exists p. split; [exact Ep|]. rewrite LS in W. pose proof (softmax_lip _ _ e He G2) as LP. fold (label_probs v output) in LP.
    assert (D1 : Forall (fun x => x <= 1) (label_probs v output)).
    { assert (DD : distribution (label_probs v output)) by (apply softmax_dist; destruct output; [congruence|discriminate]).
      destruct DD as [D1 _]. eapply Forall_impl; [|exact D1]. cbv beta. intros; lra. }
    unfold within in *. revert D1 LP. generalize (label_probs v output). revert W. generalize (softmax (reals (@scores (F64 m) v output))).
    clear - He. intros q W. induction W as [|x r p q [Fx Bx] W IH]; intros t D1 LP; inversion LP as [|? b ? t' [B0 BL] LP']; subst; [constructor|]. constructor; [|apply IH; [inversion D1; auto|auto]].
    split; [exact Fx|]. inversion D1; subst. unfold ft_error. replace (real x - b) with ((real x - r) + (r - b)) by ring.
    eapply Rle_trans; [apply Rabs_triang|]. apply Rplus_le_compat; [exact Bx|]. eapply Rle_trans; [exact BL|]. rewrite <- (Rmult_1_r (4 * e)) at 2. apply Rmult_le_compat_l; lra.
Qed.

(** C56.  [predict] on doubles, for k >= 0: the labels and probabilities are
    those of at most k positions (the k most likely of those that reach the
    threshold), and every probability returned is the exact one of its label,
    given the sentence vector, up to [ft_error]. *)
Theorem C56_accuracy_float_partial : forall m d e (U : textlib) (f : fasttext (F64 m)) labels output text v (k : Z) thr,
  exp_accurate m d -> 0 <= d -> 0 <= e <= / 4 ->
  f_sup f = Some (lit "softmax", labels, output) -> length labels = length output -> output <> [] ->
  (Z.of_nat (length output) <= 2 ^ 47)%Z -> INR (length output) * d <= / 8 ->
  get_sentence_vector U f text = Ok v -> tame_scores v output e -> (0 <= k)%Z ->
  exists p I ls ps, ft_predict U f (One text) k thr = Ok (ls, ps) /\
    within (ft_error d e (length output)) p (label_probs v output) /\ @top_k (F64 m) p thr (Z.to_nat k) I /\
    Forall2 (fun i l => nth_error labels i = Some l) I ls /\ Forall2 (fun i x => nth_error p i = Some x) I ps.
Proof.
  intros m d e U f labels output text v k thr HA Hd He HF LL N LK Hnd EV HT Hk.
  destruct (ft_probs m d e v output HA Hd He N LK Hnd HT) as (p & Ep & W).
  assert (Lp : length p = length output). { apply Forall2_len in W. unfold label_probs, softmax in W. rewrite !map_length in W. exact W. }
  unfold ft_predict, ft_predict1. rewrite HF, EV. cbn [bind]. rewrite str_eqb_refl. cbn [guard bind].
  assert (DS : ft_dot v output = scores v output) by (unfold ft_dot, scores; apply map_ext; intro b; apply psum_zip). rewrite DS.
  rewrite Ep. cbn [bind].
  assert (NP : Forall (fun x : F64 m => isnan x = false) p).
  { clear - W. unfold within in W. change (num (F64 m)) with f64 in *. induction W as [|x r p q [Fx _] W IH]; constructor; auto. destruct x; auto; discriminate. }
  destruct (ranked (F64_ord m) p thr NP) as (qs & Eq & SQ & NQ & IQ). rewrite Eq. cbn [bind]. rewrite kept_idx.
  set (I := firstn (Z.to_nat k) (map snd (filter (fun q => leb thr (fst q)) qs))).
  assert (ES : slice_to (map snd (filter (fun q => leb thr (fst q)) qs)) k = I) by (unfold slice_to; destruct (Z.ltb_spec k 0); [lia|reflexivity]). rewrite ES.
  pose proof (top_k_ok (A:=F64 m) p thr (Z.to_nat k) qs SQ NQ IQ) as TK. fold I in TK.
  assert (IB : forall i, In i I -> (i < length p)%nat). { intros i Hi. destruct TK as (_ & _ & T & _). destruct (T i Hi) as (x & Hx & _). apply nth_error_Some. congruence. }
  assert (PK : forall {T} (l : list T), length l = length p -> exists ys, mapM (lnth l) I = Ok ys /\ Forall2 (fun i y => nth_error l i = Some y) I ys).
  { intros T l Hl. destruct (mapM_total (lnth l) I) as [ys E].
    - intros i Hi. unfold lnth. destruct (nth_error l i) eqn:Q; eauto. apply nth_error_None in Q. specialize (IB i Hi). lia.
    - exists ys. split; auto. apply mapM_Forall2 in E. eapply Forall2_imp; [|exact E]. intros i y H. unfold lnth in H. destruct (nth_error l i); congruence. }
  destruct (PK _ labels) as (ls & El & Fl); [congruence|]. destruct (PK _ p eq_refl) as (ps & Eps & Fp).
  exists p, I, ls, ps. rewrite El, Eps. auto.
Qed.
Print Assumptions C56_accuracy_float_partial.

(** When the computed probabilities [p] are within [z] of [t], and position i
    leads by more than 2z and exceeds the threshold by more than z, it is first. *)
Lemma first_label : forall m (labels : list pystr) (t : list R) (p : list (F64 m)) (thr : F64 m) k I ls ps z i l r,
  within z p t -> @top_k (F64 m) p thr (Z.to_nat k) I -> (1 <= k)%Z ->
  Forall2 (fun i l => nth_error labels i = Some l) I ls -> Forall2 (fun i x => nth_error p i = Some x) I ps ->
  nth_error labels i = Some l -> nth_error t i = Some r -> is_finite (thr : f64) = true -> real thr + z < r ->
  (forall j q, j <> i -> nth_error t j = Some q -> q + 2 * z < r) ->
  exists x ls' ps', ls = l :: ls' /\ ps = x :: ps' /\ is_finite (x : f64) = true /\ Rabs (real x - r) <= z.
Proof.
  intros m labels t p thr k I ls ps z i l r W TK Hk Fl Fp Hl Hr Ft Ht HM.
  change (num (F64 m)) with f64 in *. unfold within in W. apply Forall2_nth_error in W. destruct W as [LW W].
  destruct (nth_error_len _ _ _ _ (eq_sym LW) Hr) as [x Hx] || destruct (nth_error_len _ _ _ _ LW Hr) as [x Hx]. destruct (W i x r Hx Hr) as [Fx Bx]. change (binary_float 53 1024) with f64 in *.
  assert (LT : forall j y, j <> i -> nth_error p j = Some y -> f_leb x y = false).
  { intros j y Hj Hy. destruct (nth_error t j) as [q|] eqn:Hq; [|exfalso; apply nth_error_None in Hq; rewrite <- LW in Hq; apply nth_error_None in Hq; exact (eq_ind None (fun z => match z with Some _ => False | None => True end) Logic.I _ (eq_trans (eq_sym Hq) Hy))].
    destruct (W j y q Hy Hq) as [Fy By]. specialize (HM j q Hj Hq). apply Rabs_le_inv in Bx, By. apply (fin_lt y x); auto. lra. }
  assert (TX : @leb (F64 m) thr x = true).
  { apply Rabs_le_inv in Bx. change (f_leb thr x = true). unfold f_leb. rewrite (Bleb_correct _ _ thr x Ft Fx). apply Rle_bool_true. unfold real in *. lra. }
  destruct TK as (ND & LI & T1 & T2 & T3).
  assert (II : In i I).
  { destruct (in_dec Nat.eq_dec i I) as [|NI]; auto. exfalso. destruct (T3 i x Hx TX NI) as [LI' T]. destruct I as [|i0 I]; [cbn in LI'; lia|].
    destruct (T1 i0 (or_introl eq_refl)) as (y & Hy & _). pose proof (T i0 y (or_introl eq_refl) Hy) as Q. change (f_leb x y = true) in Q. rewrite (LT i0 y) in Q; auto; [discriminate|]. intros ->. apply NI. left; auto. }
  assert (I0 : exists I', I = i :: I').
  { destruct I as [|i0 I]; [destruct II|]. destruct (Nat.eq_dec i0 i) as [->|D]; [eauto|]. exfalso. destruct II as [|II]; [congruence|].
    apply In_nth_error in II. destruct II as [b Hb]. destruct (T1 i0 (or_introl eq_refl)) as (y & Hy & _).
    pose proof (T2 0%nat (S b) i0 i y x ltac:(lia) eq_refl Hb Hy Hx) as Q. change (f_leb x y = true) in Q. rewrite (LT i0 y) in Q; auto. discriminate. }
  destruct I0 as [I' ->]. inversion Fl as [|? l' ? ls' Hl' Fl']; subst. inversion Fp as [|? x' ? ps' Hx' Fp']; subst.
  assert (l' = l) by congruence. assert (x' = x) by (change (nth_error p i = Some x') in Hx'; congruence). subst l' x'. exists x, ls', ps'. auto.
Qed.

(** C56.  The label of the exact winner comes first, for every k >= 1, when it
    leads every other label by more than twice the error and exceeds the
    threshold by more than the error. *)
Theorem C56_label_float_partial : forall m d e (U : textlib) (f : fasttext (F64 m)) labels output text v (k : Z) thr i l r,
  exp_accurate m d -> 0 <= d -> 0 <= e <= / 4 ->
  f_sup f = Some (lit "softmax", labels, output) -> length labels = length output -> output <> [] ->
  (Z.of_nat (length output) <= 2 ^ 47)%Z -> INR (length output) * d <= / 8 ->
  get_sentence_vector U f text = Ok v -> tame_scores v output e -> (1 <= k)%Z ->
  nth_error labels i = Some l -> nth_error (label_probs v output) i = Some r ->
  is_finite (thr : f64) = true -> real thr + ft_error d e (length output) < r ->
  (forall j q, j <> i -> nth_error (label_probs v output) j = Some q -> q + 2 * ft_error d e (length output) < r) ->
  exists x ls ps, ft_predict U f (One text) k thr = Ok (l :: ls, x :: ps) /\
    is_finite (x : f64) = true /\ Rabs (real x - r) <= ft_error d e (length output).
Proof.
  intros m d e U f labels output text v k thr i l r HA Hd He HF LL N LK Hnd EV HT Hk Hl Hr Ft Ht HM.
  destruct (C56_accuracy_float_partial m d e U f labels output text v k thr HA Hd He HF LL N LK Hnd EV HT ltac:(lia)) as (p & I & ls & ps & E & W & TK & Fl & Fp).
  destruct (first_label m labels _ p thr k I ls ps _ i l r W TK Hk Fl Fp Hl Hr Ft Ht HM) as (x & ls' & ps' & -> & -> & Fx & Bx). eauto 10.
Qed.
Print Assumptions C56_label_float_partial.

(** The model of three labels, on a sentence of two known words. *)
Example C56_accuracy_ex : exists v, get_sentence_vector ex_lib (ex_ft (A:=F64 crlibm)) (lit "dog  cow cat") = Ok v /\
  tame_scores v [[f_ofZE 1 0; f_ofZE 0 0]; [f_ofZE 0 0; f_ofZE 1 0]; [f_ofZE 1 0; f_ofZE 0 0]] (/ 1024) /\
  (exists ls ps, ft_predict ex_lib (ex_ft (A:=F64 crlibm)) (One (lit "dog  cow cat")) 2 zero = Ok (lit "b" :: ls, ps)).
Proof.
  destruct (C55_accuracy_ex crlibm) as (v & E & L & B). exists v. split; [exact E|].
  change (num (F64 crlibm)) with f64 in *. destruct v as [|a [|b [|? ?]]]; try discriminate L.
  destruct (B 0%nat a eq_refl) as [Fa Ba]. destruct (B 1%nat b eq_refl) as [Fb Bb]. cbn [nth] in Ba, Bb.
  assert (0 < ulp1 <= / 1048576) by (split; [apply bpow_gt_0|]; change (/ 1048576) with (bpow radix2 (-20)); apply bpow_le; lia).
  assert (0 < tiny <= / 1048576) by (split; [apply bpow_gt_0|]; change (/ 1048576) with (bpow radix2 (-20)); apply bpow_le; lia).
  assert (Ba' : 0 <= real a <= 4) by (apply Rabs_le_inv in Ba; lra). assert (Bb' : 0 <= real b <= 4) by (apply Rabs_le_inv in Bb; lra).
  assert (FI : forall n, (Z.abs n <= 2 ^ 53)%Z -> is_finite (f_ofZE n 0) = true) by (intros; apply real_ofZ; auto).
  assert (BP : 4 <= bpow radix2 1000) by (apply Rle_trans with (bpow radix2 2); [cbn; lra|apply bpow_le; lia]).
  assert (TS : tame_scores [a; b] [[f_ofZE 1 0; f_ofZE 0 0]; [f_ofZE 0 0; f_ofZE 1 0]; [f_ofZE 1 0; f_ofZE 0 0]] (/ 1024)).
  { split; [repeat constructor; auto|]. split; [cbn; lia|].
    repeat (constructor; [split; [repeat constructor; apply FI; cbn; lia|]; ints; rewrite !(Rabs_pos_eq (real a)), !(Rabs_pos_eq (real b)) by lra; split; nra|]). constructor. }
  split; [exact TS|].
  assert (P : label_probs [a; b] [[f_ofZE 1 0; f_ofZE 0 0]; [f_ofZE 0 0; f_ofZE 1 0]; [f_ofZE 1 0; f_ofZE 0 0]] = softmax [real a; real b; real a]).
  { unfold label_probs, reals. cbn [map Rdot]. rewrite (proj1 (real_ofZ 0 ltac:(cbn; lia))), (proj1 (real_ofZ 1 ltac:(cbn; lia))). f_equal. repeat (f_equal; try ring). }
  assert (G : 4 / 10 <= exp (real b) / Rsum (map exp [real a; real b; real a]) /\
    exp (real a) / Rsum (map exp [real a; real b; real a]) + 2 / 10 <= exp (real b) / Rsum (map exp [real a; real b; real a])).
  { cbn [map Rsum]. assert (X : exp (real b) = exp (real b - real a) * exp (real a)) by (rewrite <- exp_plus; f_equal; ring).
    pose proof (exp_ineq1_le (real b - real a)) as Y. apply Rabs_le_inv in Ba, Bb. set (t := exp (real b - real a)) in *. pose proof (exp_pos (real a)) as Z.
    assert (T : 18 / 10 <= t) by lra. rewrite X.
    replace (exp (real a) + (t * exp (real a) + (exp (real a) + 0))) with ((t + 2) * exp (real a)) by ring.
    clearbody t. generalize dependent (exp (real a)). intros w _ Z.
    assert (N1 : t + 2 <> 0) by lra. assert (N2 : w <> 0) by lra.
    replace (t * w / ((t + 2) * w)) with (1 - 2 * / (t + 2)) by (field; auto).
    replace (w / ((t + 2) * w)) with (/ (t + 2)) by (field; auto).
    assert (/ (t + 2) <= / (38 / 10)) by (apply Rinv_le_contravar; lra). lra. }
  assert (ER : ft_error u (/ 1024) 3 <= 1 / 100).
  { unfold ft_error. cbn [INR]. rewrite ulp1_u. pose proof u_le. assert (u <= / 1048576) by (change (/ 1048576) with (bpow radix2 (-20)); unfold u; apply bpow_le; lia). lra. }
  destruct (C56_label_float_partial crlibm u (/ 1024) ex_lib (ex_ft (A:=F64 crlibm)) [lit "a"; lit "b"; lit "c"]
    [[f_ofZE 1 0; f_ofZE 0 0]; [f_ofZE 0 0; f_ofZE 1 0]; [f_ofZE 1 0; f_ofZE 0 0]] (lit "dog  cow cat") [a; b] 2 (f_ofZE 0 0) 1 (lit "b") (exp (real b) / Rsum (map exp [real a; real b; real a])))
    as (x & ls & ps & Q & _).
  - exact cr_exp_accurate.
  - apply u_le.
  - lra.
  - reflexivity.
  - reflexivity.
  - discriminate.
  - cbn; lia.
  - cbn [length INR]. pose proof u_le. lra.
  - exact E.
  - exact TS.
  - lia.
  - reflexivity.
  - rewrite P. unfold softmax. cbn [map nth_error]. reflexivity.
  - apply FI; cbn; lia.
  - cbn [length]. rewrite (proj1 (real_ofZ 0 ltac:(cbn; lia))). lra.
  - cbn [length]. intros j q Hj. rewrite P. unfold softmax. destruct j as [|[|[|j]]]; cbn [map nth_error]; [..|destruct j; discriminate]; try congruence; intros [= <-]; cbn [map Rsum] in G |- *; lra.
  - exists ls, (x :: ps). exact Q.
Qed.
