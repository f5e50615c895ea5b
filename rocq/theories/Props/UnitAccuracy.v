(** C55: sentence vectors of unsupervised fastText models on doubles. *)
From Coq Require Import String Reals Lia Lra.
From Flocq Require Import Core BinarySingleNaN.
From Verif Require Import Model.Py Model.Arith Model.F64 Model.XR Model.Utils Model.Base Model.Text Model.FastText.
From Verif Require Import Spec.Matrix Spec.Reals Spec.Libm Spec.Text Spec.Ensembles Spec.FastText Spec.Rounding Spec.Scaling Spec.Pairwise.
From Verif Require Import Proofs.Lib Proofs.Laws Proofs.Round Proofs.Unit Proofs.Arrays Proofs.Arrays2 Proofs.RealLib Proofs.Text Proofs.FastText Proofs.Scaling Proofs.Pairwise Proofs.SumErr Proofs.DotErr Proofs.NormErr Proofs.BoostErr.
From Verif Require Import Props.Text Props.FastText Props.Accuracy Props.SentenceAccuracy.
Import ListNotations.
Local Open Scope R_scope.

(** One vector times the inverse of its norm. *)
Lemma unit_close : forall m (x : list f64), all_finite x -> (Z.of_nat (length x) <= 2 ^ 46)%Z -> well_scaled (reals x) ->
  exists d : list f64, @Spec.FastText.unit_row (F64 m) x d /\ Forall2 (close ((2 * INR (length x) + 9) * ulp1)) (unitise Rl2 (reals x)) d.
Proof.
  intros m x Fx LN W. assert (UL1 : 0 < ulp1) by apply bpow_gt_0. pose proof eta_pos as EP. pose proof u_pos as UP.
  assert (n0 : 0 <= INR (length x)) by apply pos_INR.
  assert (XB : Rdot (reals x) (reals x) <= bpow radix2 1000) by (destruct W as [->|W]; [apply bpow_ge_0|apply W]).
  assert (SQ : Forall2 (fun a q : f64 => f_sqr a = Ok q) x (map (fun a => f_mul a a) x)).
  { assert (G : Forall (fun a : f64 => f_sqr a = Ok (f_mul a a)) x).
    { apply Forall_forall. intros a Ha. assert (Fa : is_finite a = true) by (unfold all_finite in Fx; rewrite Forall_forall in Fx; apply Fx; auto).
      assert (B : Rabs (real a * real a) <= bpow radix2 1010).
      { rewrite Rabs_pos_eq by nra. eapply Rle_trans; [apply (entry_le (reals x) (real a)); unfold reals; apply in_map; auto|]. eapply Rle_trans; [exact XB|]. apply bpow_le. lia. }
      destruct (mul_fits a a Fa Fa B) as [FM _]. unfold f_sqr. change (Bmult mode_NE a a) with (f_mul a a). rewrite FM, andb_false_r. reflexivity. }
    clear - G. induction G; cbn [map]; constructor; auto. }
  assert (PS : @psum (F64 m) (map (fun a => f_mul a a) x) = @dotp (F64 m) x x).
  { rewrite <- psum_zip. f_equal. clear. induction x as [|a x IH]; cbn [map zip_with]; [reflexivity|]. exact (f_equal (cons (f_mul a a)) IH). }
  destruct (l2_norms m [x]) as (ns & En & _).
  { constructor; [|constructor]. eapply Forall_impl; [|exact Fx]. intros a Fa. destruct a; auto; discriminate. }
  cbn [mapM] in En. destruct (@sqrtv (F64 m) (@dotp (F64 m) x x)) as [N|] eqn:E; [|discriminate]. clear En ns. change (f_sqrt (@dotp (F64 m) x x) = Ok N) in E.
  assert (NO : @norm_of (F64 m) x N) by (exists (map (fun a => f_mul a a) x); split; [exact SQ|rewrite PS; exact E]).
  destruct W as [W|W].
  - exists x. assert (Z : Rl2 (reals x) = 0) by (unfold Rl2; rewrite W; apply sqrt_0).
    assert (FZ : Forall (fun a : f64 => exists s, a = B754_zero s) x).
    { apply Rl2_zero in Z. clear - Fx Z. induction Fx as [|a x Fa Fx IH]; constructor; inversion Z; subst; auto. apply B2R_0; auto. }
    assert (NZ : exists s, N = B754_zero s).
    { assert (DZ : exists s, @dotp (F64 m) x x = B754_zero s).
      { unfold dotp. change (zero : F64 m) with (B754_zero false : f64). generalize false. clear - FZ. induction FZ as [|a x [s ->] FZ IH]; intro t; [exists t; reflexivity|]. cbn [combine fold_left fst snd].
        destruct s, t; apply IH. }
      destruct DZ as [s Hs]. rewrite Hs in E. cbn in E. injection E as <-. destruct s; eauto. }
    destruct NZ as [s ->]. split.
    + exists (B754_zero s : F64 m). split; [exact NO|]. split; [destruct s; intro Q; discriminate Q|reflexivity].
    + unfold unitise. rewrite Z. replace (Reqb 0 0) with true by (symmetry; unfold Reqb; destruct (Req_EM_T 0 0); auto; congruence).
      unfold reals. apply Forall2_map_l. assert (C0 : 0 <= (2 * INR (length x) + 9) * ulp1) by (apply Rmult_le_pos; lra). revert C0. generalize ((2 * INR (length x) + 9) * ulp1). clear - Fx EP. intros c C0.
      induction Fx as [|a x Fa Fx IH]; constructor; auto. split; [exact Fa|]. rewrite Rminus_eq_0, Rabs_R0. pose proof (Rabs_pos (real a)). assert (0 <= c * Rabs (real a)) by (apply Rmult_le_pos; auto). lra.
  - destruct (norm_err m x N Fx LN W E) as [FN EN]. set (L := Rl2 (reals x)) in *.
    assert (LL : L * L = Rdot (reals x) (reals x)) by apply Rl2_sq.
    assert (Lp : 0 < L). { apply sqrt_lt_R0. eapply Rlt_le_trans; [|apply W]. apply bpow_gt_0. }
    assert (L1 : bpow radix2 (-480) <= L <= bpow radix2 500).
    { assert (P1 := bpow_gt_0 radix2 (-480)). assert (P2 := bpow_gt_0 radix2 500). split; apply Rsqr_incr_0_var; unfold Rsqr; try lra; rewrite LL, <- bpow_plus; apply W. }
    set (h := (INR (length x) + 3) * ulp1) in *.
    assert (nB : INR (length x) <= bpow radix2 46) by (apply INR_le_bpow; lia).
    assert (NU : INR (length x) * u <= / 64).
    { apply Rle_trans with (bpow radix2 46 * u); [apply Rmult_le_compat_r; lra|]. change (/ 64) with (bpow radix2 (-6)). unfold u. rewrite <- bpow_plus. apply bpow_le. lia. }
    assert (U64 : u <= / 64) by (change (/ 64) with (bpow radix2 (-6)); apply bpow_le; lia).
    assert (H0 : 0 <= h) by (unfold h; rewrite ulp1_u; nra). assert (H1 : h <= / 4) by (unfold h; rewrite ulp1_u; nra).
    apply Rabs_le_inv in EN. assert (Np : 0 < real N) by nra. assert (N2 : real N <= 2 * L) by nra. assert (N1 : L <= 2 * real N) by nra.
    destruct (real_ofZ 1 ltac:(cbn; lia)) as [OR OF]. destruct (real_ofZ 0 ltac:(cbn; lia)) as [ZR ZF].
    assert (NP : @ltb (F64 m) zero N = true) by (apply (fin_lt (f_ofZE 0 0) N ZF FN); rewrite ZR; exact Np).
    assert (DV : exists r : f64, f_div (f_ofZE 1 0) N = Ok r).
    { apply (u_div_ok _ (F64_unit m)). destruct (@eqb (F64 m) N zero) eqn:Q; auto. rewrite (o_eq_lt_r _ (F64_ord m) _ _ zero Q) in NP. rewrite (o_irr _ (F64_ord m)) in NP. discriminate. }
    destruct DV as [r Er]. exists (map (fun a => f_mul a r) x).
    assert (B500 : bpow radix2 500 * 2 = bpow radix2 501) by (change 2 with (bpow radix2 1); rewrite <- bpow_plus; reflexivity).
    assert (B480 : 2 * / bpow radix2 (-480) = bpow radix2 481) by (rewrite <- bpow_opp; change 2 with (bpow radix2 1); rewrite <- bpow_plus; reflexivity).
    assert (I1 : bpow radix2 (-501) <= / real N <= bpow radix2 481).
    { split; [change (-501)%Z with (- (501))%Z; rewrite bpow_opp; apply Rinv_le_contravar; lra|].
      rewrite <- B480. replace (2 * / bpow radix2 (-480)) with (/ (bpow radix2 (-480) * / 2)) by (field; apply Rgt_not_eq, bpow_gt_0). apply Rinv_le_contravar; [apply Rmult_lt_0_compat; [apply bpow_gt_0|lra]|lra]. }
    assert (ip : 0 < / real N) by (apply Rinv_0_lt_compat; exact Np).
    destruct (div_fits _ _ _ OF FN Er) as (Fr & d1 & e1 & Hd1 & He1 & Rr).
    { rewrite OR. unfold Rdiv. rewrite Rmult_1_l, Rabs_pos_eq by lra. eapply Rle_trans; [apply I1|apply bpow_le; lia]. }
    rewrite OR in Rr. unfold Rdiv in Rr. rewrite Rmult_1_l in Rr.
    assert (RR : exists g, real r = / real N * (1 + g) /\ Rabs g <= 2 * u).
    { exists (d1 + e1 * real N). split; [rewrite Rr; field; lra|].
      assert (EN1 : Rabs (e1 * real N) <= u).
      { rewrite Rabs_mult, (Rabs_pos_eq (real N)) by lra. apply Rle_trans with (eta * bpow radix2 501); [apply Rmult_le_compat; try lra; apply Rabs_pos|]. unfold eta, u. rewrite <- bpow_plus. apply bpow_le. lia. }
      eapply Rle_trans; [apply Rabs_triang|]. lra. }
    destruct RR as (g & Rg & Hg). split.
    + exists N. split; [exact NO|]. split; [intros _; exists r; split; [intros _; exact Er|reflexivity]|intro Q; rewrite Q in NP; discriminate].
    + unfold unitise. fold L. replace (Reqb L 0) with false by (symmetry; unfold Reqb; destruct (Req_EM_T L 0); auto; lra).
      unfold reals. rewrite map_map. apply Forall2_nth_error. rewrite !map_length. split; [reflexivity|].
      intros i ra b Ha Hb. rewrite nth_error_map' in Ha. rewrite nth_error_map' in Hb. destruct (nth_error x i) as [a|] eqn:Hx; [|discriminate]. injection Ha as <-. injection Hb as <-.
      assert (IA : In a x) by (eapply nth_error_In; exact Hx).
      assert (Fa : is_finite a = true) by (unfold all_finite in Fx; rewrite Forall_forall in Fx; apply Fx; auto).
      assert (ENT : Rabs (real a) <= L) by (apply entry_l2; unfold reals; apply in_map; auto).
      assert (Q : exists f, / real N = / L * (1 + f) /\ Rabs f <= 2 * h).
      { exists (L / real N - 1). split; [field; lra|]. apply Rabs_le. split.
        - apply Rmult_le_reg_r with (real N); auto. replace ((L / real N - 1) * real N) with (L - real N) by (field; lra). nra.
        - apply Rmult_le_reg_r with (real N); auto. replace ((L / real N - 1) * real N) with (L - real N) by (field; lra).
          assert (0 <= h * L * (1 - 2 * h)) by (apply Rmult_le_pos; [apply Rmult_le_pos; lra|lra]). nra. }
      destruct Q as (f & Q & Hf). rewrite Q in Rg.
      assert (A1 : Rabs (real a / L) <= 1) by (unfold Rdiv; rewrite Rabs_mult, (Rabs_pos_eq (/ L)) by (apply Rlt_le, Rinv_0_lt_compat; auto); apply Rmult_le_reg_r with L; auto; rewrite Rmult_assoc, Rinv_l by lra; lra).
      assert (FG : exists k, (1 + f) * (1 + g) = 1 + k /\ Rabs k <= 2 * h + 3 * u).
      { exists (f + g + f * g). split; [ring|]. assert (Rabs (f * g) <= 2 * h * (2 * u)) by (rewrite Rabs_mult; apply Rmult_le_compat; auto using Rabs_pos).
        pose proof (Rabs_triang (f + g) (f * g)). pose proof (Rabs_triang f g). assert (2 * h * (2 * u) <= u) by nra. lra. }
      destruct FG as (k & Ek & Hk).
      assert (PR : real a * real r = real a / L * (1 + k)) by (rewrite Rg, <- Ek; unfold Rdiv; ring).
      destruct (mul_fits a r Fa Fr) as (Fb & d2 & e2 & Hd2 & He2 & Rb).
      { rewrite PR, Rabs_mult. apply Rle_trans with (1 * 2); [apply Rmult_le_compat; auto using Rabs_pos; apply Rabs_le_inv in Hk; apply Rabs_le; lra|]. rewrite Rmult_1_l. change 2 with (bpow radix2 1). apply bpow_le. lia. }
      split; [exact Fb|]. rewrite Rb, PR. set (q := real a / L) in *.
      replace (q * (1 + k) * (1 + d2) + e2 - q) with (q * (k + d2 + k * d2) + e2) by ring. eapply Rle_trans; [apply Rabs_triang|]. apply Rplus_le_compat; auto. rewrite Rabs_mult, Rmult_comm. apply Rmult_le_compat_r; [apply Rabs_pos|].
      assert (KD : Rabs (k * d2) <= (2 * h + 3 * u) * u) by (rewrite Rabs_mult; apply Rmult_le_compat; auto using Rabs_pos).
      pose proof (Rabs_triang (k + d2) (k * d2)). pose proof (Rabs_triang k d2).
      replace ((2 * INR (length x) + 9) * ulp1) with (2 * h + 6 * u) by (unfold h; rewrite ulp1_u; ring). assert ((2 * h + 3 * u) * u <= u) by nra. lra.
Qed.

Lemma mean_close : forall c l l', l <> [] -> Forall2 (fun a b => Rabs (a - b) <= c) l l' -> Rabs (Rmean l - Rmean l') <= c.
Proof.
  intros c l l' N H. assert (E : length l' = length l) by (symmetry; eapply Forall2_len; eauto). unfold Rmean. rewrite E.
  assert (P : 0 < INR (length l)) by (apply lt_0_INR; destruct l; [congruence|cbn; lia]).
  assert (S : Rabs (Rsum l - Rsum l') <= INR (length l) * c).
  { clear - H. induction H as [|a b l l' Hab H IH]; [cbn; rewrite Rminus_eq_0, Rabs_R0; lra|]. cbn [Rsum length]. rewrite S_INR.
    replace (a + Rsum l - (b + Rsum l')) with ((a - b) + (Rsum l - Rsum l')) by ring. eapply Rle_trans; [apply Rabs_triang|]. lra. }
  replace (Rsum l / INR (length l) - Rsum l' / INR (length l)) with ((Rsum l - Rsum l') * / INR (length l)) by (unfold Rdiv; ring).
  rewrite Rabs_mult, (Rabs_pos_eq (/ _)) by (left; apply Rinv_0_lt_compat; exact P). apply Rmult_le_reg_r with (INR (length l)); [exact P|]. rewrite Rmult_assoc, Rinv_l by lra. lra.
Qed.

(** C55.  The sentence vector of an unsupervised model, on doubles, for finite
    word vectors that are zero or of moderate norm: it exists, has the model's
    dimension, and each component is the exact mean of the components of the
    words' unit vectors (a zero vector counts as itself) up to
    2 n + 2 dim + 11 ulps of 1. *)
Theorem C55_unsupervised_accuracy_float : forall (m : libm) (U : textlib) (f : fasttext (F64 m)) text ws ks vs N dim,
  f_sup f = None -> x_space U 10 = true -> ~ In 10%Z text -> words (x_space U) text ws ->
  restricted (f_words f) ws ks -> ks <> [] ->
  rect (f_input f) N dim -> Forall2 (vector_of (f_words f) (f_input f)) ks vs ->
  (Z.of_nat (length vs) <= 2 ^ 52)%Z -> (Z.of_nat dim <= 2 ^ 46)%Z -> Forall all_finite vs -> Forall (fun v => well_scaled (reals v)) vs ->
  exists out, get_sentence_vector U f text = Ok out /\ length out = dim /\
    forall j x, nth_error out j = Some x -> is_finite x = true /\
      Rabs (real x - Rmean (map (fun v => nth j (unitise Rl2 (reals v)) 0) vs))
        <= (2 * INR (length vs) + 2 * INR dim + 11) * ulp1 + 2 * tiny.
Proof.
  intros m U f text ws ks vs N dim ES HS HN HW HR NK RI HV BK BD FV SV.
  assert (RV : rect vs (length ks) dim).
  { split; [symmetry; eapply Forall2_len; eauto|]. apply Forall_forall. intros v Hv. apply In_nth_error in Hv. destruct Hv as [j Hj].
    apply Forall2_nth_error in HV. destruct HV as [LV HV]. destruct (nth_error_len _ _ _ _ LV Hj) as [k Hk]. destruct (HV j k v Hk Hj) as (i & _ & Hi).
    destruct RI as [_ RI]. rewrite Forall_forall in RI. apply RI. eapply nth_error_In; eauto. }
  assert (LV : length vs = length ks) by apply RV.
  assert (K1 : (1 <= length ks)%nat) by (destruct ks; [congruence|cbn; lia]).
  set (c := (2 * INR dim + 9) * ulp1).
  assert (US : exists us, Forall2 (@Spec.FastText.unit_row (F64 m)) vs us /\
    Forall2 (fun (v : list f64) (d : list f64) => length d = dim /\ Forall2 (close c) (unitise Rl2 (reals v)) d) vs us).
  { destruct RV as [_ RV]. clear - FV SV RV BD. change (num (F64 m)) with f64 in *. induction FV as [|v vs Fv FV IH]; [exists []; split; constructor|].
    inversion SV as [|? ? Sv SV']; subst. inversion RV as [|? ? Rv RV']; subst. destruct (IH SV' RV') as (us & I1 & I2).
    destruct (unit_close m v Fv BD Sv) as (d & D1 & D2).
    exists (d :: us). split; constructor; auto. split; [|exact D2]. apply Forall2_len in D2. rewrite unitise_len in D2. unfold reals in D2. rewrite map_length in D2. symmetry; exact D2. }
  destruct US as (us & UR & UC). assert (LU : length us = length ks) by (rewrite <- LV; symmetry; eapply Forall2_len; exact UR).
  assert (RU : @rect f64 us (length ks) dim).
  { split; [exact LU|]. clear - UC. induction UC as [|v d vs us [H _] UC IH]; constructor; auto. }
  destruct (C55_supervised_total m us (length ks) dim RU K1) as [out AV]; [lia|]. exists out.
  assert (HR' : restricted (f_words f) (ws ++ match f_sup f with Some _ => [lit "</s>"] | None => [] end) ks) by (rewrite ES, app_nil_r; exact HR).
  pose proof (proj2 (C55_partial (F64 m) U f text ws ks vs N dim HS HN HW HR' NK RI HV out)) as E. rewrite ES in E. split; [apply E; exists us; auto|].
  destruct AV as [LO AV]. split; [exact LO|]. intros j x Hj. destruct (AV j x Hj) as (col & HC & D).
  assert (LC : length us = length col) by (eapply Forall2_len; exact HC).
  change (num (F64 m)) with f64 in *.
  pose proof u_pos as UP. assert (U0 : 0 < ulp1) by apply bpow_gt_0. pose proof eta_pos as EP. pose proof tiny_eta as TE.
  assert (D0 : 0 <= INR dim) by apply pos_INR.
  assert (DB : INR dim <= bpow radix2 46) by (apply INR_le_bpow; lia).
  assert (U20 : ulp1 <= / 1048576) by (change (/ 1048576) with (bpow radix2 (-20)); apply bpow_le; lia).
  assert (CB : 0 <= c <= / 4).
  { unfold c. split; [apply Rmult_le_pos; lra|]. assert (INR dim * ulp1 <= / 64); [|lra].
    apply Rle_trans with (bpow radix2 46 * ulp1); [apply Rmult_le_compat_r; lra|]. change (/ 64) with (bpow radix2 (-6)). unfold ulp1. rewrite <- bpow_plus. apply bpow_le. lia. }
  assert (ET : eta <= / 4) by (change (/ 4) with (bpow radix2 (-2)); apply bpow_le; lia).
  assert (G : Forall2 (fun a (q : f64) => is_finite q = true /\ Rabs a <= 1 /\ Rabs (real q - a) <= c + eta) (map (fun v : list f64 => nth j (unitise Rl2 (reals v)) 0) vs) col).
  { clear - UC HC CB EP. revert col HC. induction UC as [|v d vs us [_ H] UC IH]; intros col HC; inversion HC as [|? q ? col' Hq HC']; subst; [constructor|]. cbn [map]. constructor; [|apply IH; exact HC'].
    apply Forall2_nth_error in H. destruct H as [LH H]. destruct (nth_error_len _ _ _ _ LH Hq) as [a Ha]. destruct (H j a q Ha Hq) as [Fq Bq]. rewrite (nth_error_nth _ _ 0 Ha).
    assert (A1 : Rabs a <= 1) by (pose proof (unitise_le1 (reals v)) as Q; rewrite Forall_forall in Q; apply Q; eapply nth_error_In; exact Ha).
    split; [exact Fq|]. split; [exact A1|]. eapply Rle_trans; [exact Bq|]. apply Rplus_le_compat_r. rewrite <- (Rmult_1_r c) at 2. apply Rmult_le_compat_l; lra. }
  assert (NC : col <> []) by (intros ->; cbn in LC; lia).
  assert (FC : all_finite col) by (clear - G; induction G as [|a q l col [H _] G IH]; constructor; auto).
  assert (AC : 0 <= Rsum (map Rabs (reals col)) <= INR (length col) * 2).
  { clear - G CB ET. induction G as [|a q l col (_ & A1 & A2) G IH]; [cbn; lra|]. cbn [reals map Rsum length]. rewrite S_INR. fold (reals col).
    assert (Rabs (real q) <= 2) by (replace (real q) with ((real q - a) + a) by ring; eapply Rle_trans; [apply Rabs_triang|]; lra). pose proof (Rabs_pos (real q)). lra. }
  assert (NB : INR (length col) <= bpow radix2 52) by (apply INR_le_bpow; lia).
  rewrite LC in D. destruct (signed_mean col x NC) as [Fx Bx]; auto.
  { lia. }
  { eapply Rle_trans; [apply AC|]. apply Rle_trans with (bpow radix2 52 * bpow radix2 1); [change (bpow radix2 1) with 2; lra|rewrite <- bpow_plus; apply bpow_le; lia]. }
  split; [exact Fx|].
  assert (P : 0 < INR (length col)) by (apply lt_0_INR; destruct col; [congruence|cbn; lia]).
  assert (MA : Rmean (map Rabs (reals col)) <= 2).
  { unfold Rmean, reals. rewrite !map_length. apply Rmult_le_reg_r with (INR (length col)); [exact P|]. unfold Rdiv. rewrite Rmult_assoc, Rinv_l by lra. fold (reals col). lra. }
  assert (MC : Rabs (Rmean (reals col) - Rmean (map (fun v : list f64 => nth j (unitise Rl2 (reals v)) 0) vs)) <= c + eta).
  { apply mean_close; [destruct col; [congruence|discriminate]|]. clear - G. induction G as [|a q l col (_ & _ & H) G IH]; cbn [reals map]; constructor; auto. }
  set (M := Rmean (map (fun v : list f64 => nth j (unitise Rl2 (reals v)) 0) vs)) in *. replace (real x - M) with ((real x - Rmean (reals col)) + (Rmean (reals col) - M)) by ring.
  eapply Rle_trans; [apply Rabs_triang|]. replace (length vs) with (length col) by lia.
  assert ((INR (length col) + 1) * ulp1 * Rmean (map Rabs (reals col)) <= (INR (length col) + 1) * ulp1 * 2) by (apply Rmult_le_compat_l; [apply Rmult_le_pos; lra|exact MA]).
  unfold c in MC. lra.
Qed.
Print Assumptions C55_unsupervised_accuracy_float.

(** Two known words with vectors (3, 4) and (0, -2): the exact unit vectors are
    (0.6, 0.8) and (0, -1), and their mean is (0.3, -0.1). *)
Definition ex_plain {A : arith} : fasttext A :=
  {| f_words := [lit "cat"; lit "dog"; lit "owl"]; f_input := [[ofZ 3; ofZ 4]; [ofZ 0; ofZ (-2)]; [ofZ 0; ofZ 0]]; f_dim := 2%Z; f_sup := None |}.
Example C55_unsupervised_ex : forall m : libm, exists out,
  get_sentence_vector ex_lib (ex_plain (A:=F64 m)) (lit "dog  cow cat") = Ok out /\ length out = 2%nat /\
  forall j x, nth_error out j = Some x -> is_finite (x : f64) = true /\ Rabs (real x - nth j [3 / 10; - (1 / 10)] 0) <= 19 * ulp1 + 2 * tiny.
Proof.
  intro m. assert (FI : forall n, (Z.abs n <= 2 ^ 53)%Z -> is_finite (f_ofZE n 0) = true) by (intros; apply real_ofZ; auto).
  assert (BL : bpow radix2 (-960) <= 1 /\ 32 <= bpow radix2 1000).
  { split; [apply Rle_trans with (bpow radix2 0); [apply bpow_le; lia|cbn; lra]|apply Rle_trans with (bpow radix2 5); [cbn; lra|apply bpow_le; lia]]. }
  destruct (C55_unsupervised_accuracy_float m ex_lib (ex_plain (A:=F64 m)) (lit "dog  cow cat") [lit "dog"; lit "cow"; lit "cat"] [lit "dog"; lit "cat"]
    [[f_ofZE 0 0; f_ofZE (-2) 0]; [f_ofZE 3 0; f_ofZE 4 0]] 3 2) as (out & E & L & B).
  - reflexivity.
  - reflexivity.
  - cbn. intuition discriminate.
  - apply (proj1 (words_split ex_lib 100 (lit "dog  cow cat") ltac:(cbn; lia))).
  - apply (restricted_filter' (f_words (ex_plain (A:=F64 m)))).
  - discriminate.
  - split; [reflexivity|repeat constructor].
  - constructor; [exists 1%nat|constructor; [exists 0%nat|constructor]]; (split; [|reflexivity]); (split; [reflexivity|]);
      intros [|[|[|j]]] Hj; try lia; cbn; discriminate.
  - cbn; lia.
  - lia.
  - repeat constructor; apply FI; cbn; lia.
  - constructor; [|constructor; [|constructor]]; right; unfold reals; cbn [map Rdot]; rewrite !(fun n H => proj1 (real_ofZ n H)) by (cbn; lia); lra.
  - exists out. split; [exact E|]. split; [exact L|]. intros j x Hj. destruct (B j x Hj) as [F Q]. split; [exact F|].
    assert (Lj : (j < 2)%nat) by (rewrite <- L; apply nth_error_Some; congruence).
    assert (L1 : Rl2 [0; -2] = 2) by (unfold Rl2; cbn [Rdot]; replace (0 * 0 + (-2 * -2 + 0)) with (2 * 2) by ring; apply sqrt_square; lra).
    assert (L2 : Rl2 [3; 4] = 5) by (unfold Rl2; cbn [Rdot]; replace (3 * 3 + (4 * 4 + 0)) with (5 * 5) by ring; apply sqrt_square; lra).
    assert (RQ : forall a, a <> 0 -> Reqb a 0 = false) by (intros a Ha; unfold Reqb; destruct (Req_EM_T a 0); auto; contradiction).
    revert Q. unfold Rmean, reals, unitise. cbn [map length INR]. rewrite !(fun n H => proj1 (real_ofZ n H)) by (cbn; lia). rewrite L1, L2, !RQ by lra.
    destruct j as [|[|j]]; [..|lia]; cbn [map nth Rsum length INR]; intro Q;
      match type of Q with Rabs (_ - ?a) <= _ => match goal with |- Rabs (_ - ?b) <= _ => replace b with a by field end end; (eapply Rle_trans; [exact Q|]); lra.
Qed.
