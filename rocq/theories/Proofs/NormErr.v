(** Rounding errors of Euclidean normalisation and cosines of doubles. *)
From Coq Require Import Reals Lra Lia ZArith Bool List.
From Flocq Require Import Core BinarySingleNaN Relative Plus_error.
From Verif Require Import Model.Py Model.Arith Model.F64 Model.XR Proofs.Lib Proofs.Laws Proofs.Round Proofs.Unit Proofs.Arrays2 Proofs.SumErr Proofs.DotErr.
From Verif Require Import Spec.Matrix Spec.Reals Spec.Rounding Spec.Scaling Spec.Pairwise Proofs.Scaling Proofs.Pairwise.
Import ListNotations.
Local Open Scope R_scope.

Lemma absdot_self : forall x, Rabsdot x x = Rdot x x.
Proof. unfold Rabsdot. induction x as [|a x IH]; cbn; auto. rewrite IH, <- Rabs_mult, Rabs_pos_eq by nra. reflexivity. Qed.
Lemma absdot_pos : forall x y, 0 <= Rabsdot x y.
Proof. unfold Rabsdot. induction x as [|a x IH]; intros [|b y]; cbn; try lra. specialize (IH y). pose proof (Rabs_pos a). pose proof (Rabs_pos b). nra. Qed.

Lemma sqrt_fits : forall D : f64, is_finite D = true -> bpow radix2 (-1000) <= real D <= bpow radix2 1010 -> forall N, f_sqrt D = Ok N ->
  is_finite N = true /\ sqrt (real D) * (1 - 2 * u) <= real N <= sqrt (real D) * (1 + 2 * u).
Proof.
  intros D FD [H1 H2] N E. pose proof (f_sqrt_x D) as X. rewrite E, (b2x_fin D FD) in X. cbn [rmap x_sqrt] in X. fold (real D) in X.
  assert (P : 0 < bpow radix2 (-1000)) by apply bpow_gt_0.
  replace (Rltb (real D) 0) with false in X by (symmetry; unfold Rltb; destruct (Rlt_dec _ _); auto; lra). cbn [rmap xround] in X. injection X as X.
  destruct (rnd_err (sqrt (real D))) as (d & e & Hd & He & R). pose proof u_pos. pose proof u_le. pose proof eta_pos.
  assert (S1 : bpow radix2 (-500) <= sqrt (real D)).
  { rewrite <- (sqrt_square (bpow radix2 (-500))) by apply bpow_ge_0. apply sqrt_le_1_alt. rewrite <- bpow_plus. exact H1. }
  assert (S2 : sqrt (real D) <= bpow radix2 505).
  { rewrite <- (sqrt_square (bpow radix2 505)) by apply bpow_ge_0. apply sqrt_le_1_alt. rewrite <- bpow_plus. exact H2. }
  set (s := sqrt (real D)) in *.
  assert (EU : eta <= u * s). { apply Rle_trans with (u * bpow radix2 (-500)); [unfold eta, u; rewrite <- bpow_plus; apply bpow_le; lia|apply Rmult_le_compat_l; lra]. }
  assert (S0 : 0 < s) by (eapply Rlt_le_trans; [|exact S1]; apply bpow_gt_0).
  apply Rabs_le_inv in Hd, He.
  assert (B : s * (1 - 2 * u) <= rnd s <= s * (1 + 2 * u)) by (rewrite R; nra).
  assert (BB : Rabs (rnd s) < maxb).
  { rewrite Rabs_pos_eq by nra. apply Rle_lt_trans with (bpow radix2 505 * bpow radix2 1); [|rewrite <- bpow_plus; apply bpow_lt; lia]. change (bpow radix2 1) with 2. nra. }
  rewrite (fround_fits _ BB) in X. apply fin_of_b2x in X. destruct X as [F X]. split; auto. unfold real in *. rewrite X. exact B.
Qed.

Lemma div_fits : forall x y q : f64, is_finite x = true -> is_finite y = true -> f_div x y = Ok q -> Rabs (real x / real y) <= bpow radix2 1000 ->
  is_finite q = true /\ exists d e, Rabs d <= u /\ Rabs e <= eta /\ real q = real x / real y * (1 + d) + e.
Proof.
  intros x y q Fx Fy E H. pose proof (f_div_x x y) as X. rewrite E, (b2x_fin x Fx), (b2x_fin y Fy) in X. cbn [rmap x_div] in X. fold (real x) (real y) in X.
  destruct (Reqb (real y) 0); [discriminate|]. cbn [rmap xround] in X. injection X as X.
  destruct (rnd_err (real x / real y)) as (d & e & Hd & He & R). pose proof u_pos. pose proof u_le. pose proof eta_pos. pose proof eta_small.
  assert (B : Rabs (rnd (real x / real y)) < maxb).
  { rewrite R. eapply Rle_lt_trans; [apply Rabs_triang|]. rewrite Rabs_mult. assert (G : Rabs (1 + d) <= 2) by (apply Rabs_le_inv in Hd; apply Rabs_le; lra).
    apply Rle_lt_trans with (bpow radix2 1000 * 2 + bpow radix2 1000).
    - apply Rplus_le_compat; [apply Rmult_le_compat; auto using Rabs_pos|]. apply Rle_trans with (bpow radix2 0); [change (bpow radix2 0) with 1; nra|apply bpow_le; lia].
    - apply Rle_lt_trans with (bpow radix2 2 * bpow radix2 1000); [change (bpow radix2 2) with 4; pose proof (bpow_gt_0 radix2 1000); lra|]. rewrite <- bpow_plus. apply bpow_lt. lia. }
  rewrite (fround_fits _ B) in X. apply fin_of_b2x in X. destruct X as [F X]. split; auto. exists d, e. split; auto. split; auto. unfold real in *. rewrite X. exact R.
Qed.

Lemma INR_le_bpow : forall n k, (0 <= k)%Z -> (Z.of_nat n <= 2 ^ k)%Z -> INR n <= bpow radix2 k.
Proof. intros n k K H. rewrite INR_IZR_INZ, <- IZR_Zpower by auto. apply IZR_le. exact H. Qed.

(** The norm. *)
Lemma norm_err : forall m (x : list f64) N, all_finite x -> (Z.of_nat (length x) <= 2 ^ 46)%Z ->
  bpow radix2 (-960) <= Rdot (reals x) (reals x) <= bpow radix2 1000 -> f_sqrt (@dotp (F64 m) x x) = Ok N ->
  is_finite N = true /\ Rabs (real N - Rl2 (reals x)) <= (INR (length x) + 3) * ulp1 * Rl2 (reals x).
Proof.
  intros m x N Fx LN [H1 H2] E. set (T := Rdot (reals x) (reals x)) in *. set (L := Rl2 (reals x)). set (n := INR (length x)).
  assert (P960 : 0 < bpow radix2 (-960)) by apply bpow_gt_0.
  destruct (dot_error m x x Fx Fx) as [FD ED]; [lia|rewrite absdot_self; fold T; eapply Rle_trans; [exact H2|apply bpow_le; lia]|].
  rewrite absdot_self in ED. fold T n in ED. set (D := real (@dotp (F64 m) x x)) in *.
  pose proof u_pos as UP. pose proof u_le as UL. assert (n0 : 0 <= n) by apply pos_INR.
  assert (nB : n <= bpow radix2 46) by (apply INR_le_bpow; lia).
  assert (NT : n * tiny <= u * T).
  { apply Rle_trans with (bpow radix2 46 * tiny); [apply Rmult_le_compat_r; [apply bpow_ge_0|auto]|]. apply Rle_trans with (u * bpow radix2 (-960)); [unfold tiny, u; rewrite <- !bpow_plus; apply bpow_le; lia|apply Rmult_le_compat_l; lra]. }
  assert (NU : n * u <= / 64).
  { apply Rle_trans with (bpow radix2 46 * u); [apply Rmult_le_compat_r; lra|]. change (/ 64) with (bpow radix2 (-6)). unfold u. rewrite <- bpow_plus. apply bpow_le. lia. }
  assert (U64 : u <= / 64) by (change (/ 64) with (bpow radix2 (-6)); apply bpow_le; lia).
  set (g := (2 * n + 3) * u). assert (G0 : 0 <= g) by (unfold g; nra). assert (G1 : g <= / 8) by (unfold g; nra).
  assert (ED' : Rabs (D - T) <= g * T). { eapply Rle_trans; [exact ED|]. unfold g. rewrite ulp1_u. nra. }
  apply Rabs_le_inv in ED'.
  assert (LL : L * L = T) by apply Rl2_sq. assert (L0 : 0 <= L) by apply Rl2_nonneg.
  destruct (sqrt_fits _ FD) with (N := N) as [FN [B1 B2]]; auto.
  { fold D. split; [apply Rle_trans with (T * / 2); [apply Rle_trans with (bpow radix2 (-960) * bpow radix2 (-1)); [rewrite <- bpow_plus; apply bpow_le; lia|apply Rmult_le_compat_r; [lra|auto]]|nra]|].
    apply Rle_trans with (bpow radix2 1000 * bpow radix2 1); [change (bpow radix2 1) with 2; nra|rewrite <- bpow_plus; apply bpow_le; lia]. }
  fold D in B1, B2. split; auto.
  assert (S1 : L * (1 - g) <= sqrt D).
  { rewrite <- (sqrt_square (L * (1 - g))) by nra. apply sqrt_le_1_alt. replace (L * (1 - g) * (L * (1 - g))) with (T * ((1 - g) * (1 - g))) by (rewrite <- LL; ring). nra. }
  assert (S2 : sqrt D <= L * (1 + g)).
  { rewrite <- (sqrt_square (L * (1 + g))) by nra. apply sqrt_le_1_alt. replace (L * (1 + g) * (L * (1 + g))) with (T * ((1 + g) * (1 + g))) by (rewrite <- LL; ring). nra. }
  replace ((n + 3) * ulp1) with (g + 3 * u) by (unfold g; rewrite ulp1_u; ring).
  set (s := sqrt D) in *. assert (s0 : 0 <= s) by apply sqrt_pos. apply Rabs_le.
  assert (A1 : L * ((1 - g) * (1 - 2 * u)) <= real N) by (eapply Rle_trans; [|exact B1]; rewrite <- Rmult_assoc; apply Rmult_le_compat_r; lra).
  assert (A2 : real N <= L * ((1 + g) * (1 + 2 * u))) by (eapply Rle_trans; [exact B2|]; rewrite <- Rmult_assoc; apply Rmult_le_compat_r; lra).
  assert (C1 : 1 - (g + 3 * u) <= (1 - g) * (1 - 2 * u)) by nra. assert (C2 : (1 + g) * (1 + 2 * u) <= 1 + (g + 3 * u)) by nra.
  split; nra.
Qed.

Definition close (e : R) (a : R) (y : f64) : Prop := is_finite y = true /\ Rabs (real y - a) <= e * Rabs a + eta.

Lemma entry_le : forall x a, In a x -> a * a <= Rdot x x.
Proof. induction x as [|b x IH]; intros a []; cbn; [subst; pose proof (Rdot_self_pos x); lra|]. specialize (IH a H). nra. Qed.
Lemma entry_l2 : forall x a, In a x -> Rabs a <= Rl2 x.
Proof. intros x a H. unfold Rl2. rewrite <- sqrt_Rsqr_abs. apply sqrt_le_1_alt, entry_le. exact H. Qed.

Lemma l2_row : forall m (x d : list f64) N, all_finite x -> (Z.of_nat (length x) <= 2 ^ 46)%Z -> well_scaled (reals x) ->
  f_sqrt (@dotp (F64 m) x x) = Ok N -> @divided_by (F64 m) N x d ->
  Forall2 (close ((2 * INR (length x) + 7) * ulp1)) (unitise Rl2 (reals x)) d.
Proof.
  intros m x d N Fx LN W E DV. assert (C0 : 0 <= 2 * INR (length x) + 7) by (pose proof (pos_INR (length x)); lra). assert (UL1 : 0 < ulp1) by apply bpow_gt_0. pose proof eta_pos as EP.
  destruct W as [W|W].
  - assert (Z : Rl2 (reals x) = 0) by (unfold Rl2; rewrite W; apply sqrt_0). unfold unitise. rewrite Z. replace (Reqb 0 0) with true by (symmetry; unfold Reqb; destruct (Req_EM_T 0 0); auto; congruence).
    apply Rl2_zero in Z.
    assert (FZ : Forall (fun a : f64 => exists s, a = B754_zero s) x).
    { clear - Fx Z. induction Fx as [|a x Fa Fx IH]; constructor; inversion Z; subst; auto. apply B2R_0; auto. }
    assert (NZ : exists s, N = B754_zero s).
    { assert (DZ : exists s, @dotp (F64 m) x x = B754_zero s).
      { unfold dotp. change (zero : F64 m) with (B754_zero false : f64). generalize false. clear - FZ. induction FZ as [|a x [s ->] FZ IH]; intro t; [exists t; reflexivity|]. cbn [combine fold_left fst snd].
        destruct s, t; apply IH. }
      destruct DZ as [s Hs]. rewrite Hs in E. cbn in E. injection E as <-. destruct s; eauto. }
    destruct NZ as [s ->]. assert (DX : Forall2 (fun a b : f64 => real b = real a /\ is_finite b = true) x d).
    { clear - DV FZ. unfold divided_by in DV. induction DV as [|a b x d H DV IH]; constructor; inversion FZ as [|? ? [t ->] FZ']; subst; auto.
      replace (@eqb (F64 m) (B754_zero s) zero) with true in H by (destruct s; reflexivity). destruct t; vm_compute in H; injection H as <-; split; reflexivity. }
    apply Forall2_nth_error. apply Forall2_nth_error in DX. unfold reals. rewrite map_length. split; [apply DX|]. destruct DX as [_ DX]. intros i a b Ha Hb.
    rewrite nth_error_map in Ha. destruct (nth_error x i) eqn:Hx; [|discriminate]. injection Ha as <-. destruct (DX _ _ _ Hx Hb) as [Q Fb]. split; auto. rewrite Q. unfold Rminus. rewrite Rplus_opp_r, Rabs_R0.
    assert (0 <= (2 * INR (length x) + 7) * ulp1 * Rabs (real f)) by (apply Rmult_le_pos; [apply Rmult_le_pos; lra|apply Rabs_pos]). lra.
  - destruct (norm_err m x N Fx LN W E) as [FN EN]. set (L := Rl2 (reals x)) in *.
    assert (Lp : 0 < L). { apply sqrt_lt_R0. eapply Rlt_le_trans; [|apply W]. apply bpow_gt_0. }
    set (h := (INR (length x) + 3) * ulp1) in *.
    assert (n0 : 0 <= INR (length x)) by apply pos_INR.
    assert (nB : INR (length x) <= bpow radix2 46) by (apply INR_le_bpow; lia).
    assert (NU : INR (length x) * u <= / 64).
    { pose proof u_pos. apply Rle_trans with (bpow radix2 46 * u); [apply Rmult_le_compat_r; lra|]. change (/ 64) with (bpow radix2 (-6)). unfold u. rewrite <- bpow_plus. apply bpow_le. lia. }
    assert (U64 : u <= / 64) by (change (/ 64) with (bpow radix2 (-6)); apply bpow_le; lia). pose proof u_pos as UP.
    assert (H0 : 0 <= h) by (unfold h; rewrite ulp1_u; nra). assert (H1 : h <= / 4) by (unfold h; rewrite ulp1_u; nra).
    apply Rabs_le_inv in EN. assert (Np : 0 < real N) by nra.
    assert (NZ : @eqb (F64 m) N zero = false).
    { change (f_eqb N (f_ofZE 0 0) = false). destruct N as [s|s| |s k ex Hb]; [cbn in Np; lra|destruct s; reflexivity|reflexivity|destruct s; reflexivity]. }
    unfold unitise. fold L. replace (Reqb L 0) with false by (symmetry; unfold Reqb; destruct (Req_EM_T L 0); auto; lra).
    unfold divided_by in DV. rewrite NZ in DV.
    assert (ENT : forall a, In a x -> Rabs (real a) <= L) by (intros a Ha; apply entry_l2; unfold reals; apply in_map; auto).
    unfold reals. rewrite map_map. apply Forall2_map_l. apply Forall2_nth_error. apply Forall2_nth_error in DV. destruct DV as [LD DV]. split; [exact LD|].
    intros i a b Ha Hb. specialize (DV _ _ _ Ha Hb). assert (IA : In a x) by (eapply nth_error_In; exact Ha). specialize (ENT a IA).
    assert (Fa : is_finite a = true) by (unfold all_finite in Fx; rewrite Forall_forall in Fx; apply Fx; auto).
    assert (Q : exists f, real a / real N = real a / L * (1 + f) /\ Rabs f <= 2 * h).
    { exists (L / real N - 1). split; [field; lra|]. apply Rabs_le. split.
      - apply Rmult_le_reg_r with (real N); auto. replace ((L / real N - 1) * real N) with (L - real N) by (field; lra). nra.
      - apply Rmult_le_reg_r with (real N); auto. replace ((L / real N - 1) * real N) with (L - real N) by (field; lra).
        assert (0 <= h * L * (1 - 2 * h)) by (apply Rmult_le_pos; [apply Rmult_le_pos; lra|lra]). nra. }
    destruct Q as (f & Q & Hf).
    assert (A1 : Rabs (real a / L) <= 1) by (unfold Rdiv; rewrite Rabs_mult, (Rabs_pos_eq (/ L)) by (apply Rlt_le, Rinv_0_lt_compat; auto); apply Rmult_le_reg_r with L; auto; rewrite Rmult_assoc, Rinv_l by lra; lra).
    destruct (div_fits a N b Fa FN DV) as (Fb & dd & e & Hd & He & R).
    { rewrite Q, Rabs_mult. apply Rle_trans with (1 * 2); [apply Rmult_le_compat; auto using Rabs_pos; apply Rabs_le_inv in Hf; apply Rabs_le; lra|]. rewrite Rmult_1_l. change 2 with (bpow radix2 1). apply bpow_le. lia. }
    split; auto. rewrite R, Q. set (r := real a / L) in *.
    replace (r * (1 + f) * (1 + dd) + e - r) with (r * (f + dd + f * dd) + e) by ring. eapply Rle_trans; [apply Rabs_triang|]. apply Rplus_le_compat; auto. rewrite Rabs_mult, Rmult_comm. apply Rmult_le_compat_r; [apply Rabs_pos|].
    assert (FD : Rabs (f * dd) <= 2 * h * u) by (rewrite Rabs_mult; apply Rmult_le_compat; auto using Rabs_pos).
    pose proof (Rabs_triang (f + dd) (f * dd)). pose proof (Rabs_triang f dd). 
    replace ((2 * INR (length x) + 7) * ulp1) with (2 * h + 2 * u) by (unfold h; rewrite ulp1_u; ring). assert (2 * h * u <= u) by nra. lra.
Qed.

(** Dot products of close vectors. *)
Lemma close_dot : forall e (a b : list R) (y z : list f64), 0 <= e <= / 8 -> Forall (fun r => Rabs r <= 1) a -> Forall (fun r => Rabs r <= 1) b ->
  Forall2 (close e) a y -> Forall2 (close e) b z ->
  Rabs (Rdot (reals y) (reals z) - Rdot a b) <= (2 * e + e * e) * Rabsdot a b + 4 * INR (length a) * eta /\
  Rabsdot (reals y) (reals z) <= (1 + 2 * e + e * e) * Rabsdot a b + 4 * INR (length a) * eta.
Proof.
  intros e a b y z He Ba Bb Ca. revert b z Bb. pose proof eta_pos as EP.
  assert (E1 : eta <= / 16) by (pose proof eta_small; pose proof u_pos; pose proof u_le; nra).
  induction Ca as [|r v a y [Fv Cv] Ca IH]; intros b z Bb Cb; [cbn; unfold Rabsdot; cbn; rewrite Rminus_0_r, Rabs_R0; lra|].
  inversion Cb as [|s w b' z' [Fw Cw] Cb']; subst.
  { cbn [reals map Rdot]. unfold Rabsdot. cbn [map Rdot]. rewrite Rminus_0_r, Rabs_R0. pose proof (pos_INR (length (r :: a))). assert (0 <= 4 * INR (length (r :: a)) * eta) by (apply Rmult_le_pos; lra). lra. }
  inversion Ba as [|? ? Br Ba']; inversion Bb as [|? ? Bs Bb']; subst. destruct (IH Ba' b' z' Bb' Cb') as [I1 I2].
  cbn [reals map Rdot length]. rewrite S_INR. unfold Rabsdot. cbn [map Rdot]. fold (Rabsdot (map real y) (map real z')) (Rabsdot a b'). unfold reals in I1, I2.
  set (p := Rabs r) in *. set (q := Rabs s) in *. assert (p0 : 0 <= p) by apply Rabs_pos. assert (q0 : 0 <= q) by apply Rabs_pos.
  assert (Bv : Rabs (real v) <= p + (e * p + eta)) by (replace (real v) with (r + (real v - r)) by ring; eapply Rle_trans; [apply Rabs_triang|unfold p in *; lra]).
  assert (Bw : Rabs (real w) <= q + (e * q + eta)) by (replace (real w) with (s + (real w - s)) by ring; eapply Rle_trans; [apply Rabs_triang|unfold q in *; lra]).
  assert (PQ : 0 <= p * q) by nra.
  assert (ep : 0 <= e * p <= / 8) by nra. assert (eq : 0 <= e * q <= / 8) by nra.
  assert (T : Rabs (real v * real w - r * s) <= (2 * e + e * e) * (p * q) + 4 * eta).
  { replace (real v * real w - r * s) with ((real v - r) * real w + r * (real w - s)) by ring. eapply Rle_trans; [apply Rabs_triang|]. rewrite !Rabs_mult. fold p.
    apply Rle_trans with ((e * p + eta) * (q + (e * q + eta)) + p * (e * q + eta)).
    - apply Rplus_le_compat; apply Rmult_le_compat; auto using Rabs_pos; lra.
    - assert (e * p * eta <= / 8 * eta) by (apply Rmult_le_compat_r; lra). assert (q * eta <= 1 * eta) by (apply Rmult_le_compat_r; lra). assert (e * q * eta <= / 8 * eta) by (apply Rmult_le_compat_r; lra). assert (p * eta <= 1 * eta) by (apply Rmult_le_compat_r; lra). assert (eta * eta <= / 16 * eta) by (apply Rmult_le_compat_r; lra).
      lra. }
  split.
  - replace (real v * real w + Rdot (map real y) (map real z') - (r * s + Rdot a b')) with ((real v * real w - r * s) + (Rdot (map real y) (map real z') - Rdot a b')) by ring.
    eapply Rle_trans; [apply Rabs_triang|]. lra.
  - assert (Rabs (real v) * Rabs (real w) <= (1 + 2 * e + e * e) * (p * q) + 4 * eta).
    { rewrite <- Rabs_mult. replace (real v * real w) with (r * s + (real v * real w - r * s)) by ring. eapply Rle_trans; [apply Rabs_triang|]. rewrite (Rabs_mult r s). fold p q. lra. }
    lra.
Qed.

Lemma unitise_len : forall x, length (unitise Rl2 x) = length x.
Proof. intro x. unfold unitise. destruct (Reqb _ _); auto. apply map_length. Qed.
Lemma unitise_norm : forall x, Rdot (unitise Rl2 x) (unitise Rl2 x) <= 1.
Proof.
  intro x. rewrite Rdot_unitise. apply Rcos_bound.
Qed.
Lemma unitise_le1 : forall x, Forall (fun r => Rabs r <= 1) (unitise Rl2 x).
Proof.
  intro x. apply Forall_forall. intros r H. apply entry_l2 in H. eapply Rle_trans; [exact H|]. rewrite <- sqrt_1. apply sqrt_le_1_alt, unitise_norm.
Qed.
Lemma absdot_units : forall x y, Rabsdot (unitise Rl2 x) (unitise Rl2 y) <= 1.
Proof.
  intros x y. pose proof (cauchy (map Rabs (unitise Rl2 x)) (map Rabs (unitise Rl2 y))) as C. fold (Rabsdot (unitise Rl2 x) (unitise Rl2 x)) (Rabsdot (unitise Rl2 y) (unitise Rl2 y)) (Rabsdot (unitise Rl2 x) (unitise Rl2 y)) in C.
  rewrite !absdot_self in C. pose proof (unitise_norm x). pose proof (unitise_norm y). pose proof (Rdot_self_pos (unitise Rl2 x)). pose proof (Rdot_self_pos (unitise Rl2 y)). pose proof (absdot_pos (unitise Rl2 x) (unitise Rl2 y)). 
  set (t := Rabsdot _ _) in *. assert (t * t <= 1) by nra. nra.
Qed.

Lemma cos_err : forall m (x y dx dy : list f64) n, length x = n -> length y = n -> (Z.of_nat n <= 2 ^ 46)%Z ->
  Forall2 (close ((2 * INR n + 7) * ulp1)) (unitise Rl2 (reals x)) dx -> Forall2 (close ((2 * INR n + 7) * ulp1)) (unitise Rl2 (reals y)) dy ->
  is_finite (@dotp (F64 m) dx dy) = true /\ Rabs (real (@dotp (F64 m) dx dy) - Rcos (reals x) (reals y)) <= (7 * INR n + 18) * ulp1.
Proof.
  intros m x y dx dy n Lx Ly LN Cx Cy. set (e := (2 * INR n + 7) * ulp1) in *.
  assert (n0 : 0 <= INR n) by apply pos_INR. pose proof u_pos as UP.
  assert (nB : INR n <= bpow radix2 46) by (apply INR_le_bpow; lia).
  assert (NU : INR n * u <= / 64).
  { apply Rle_trans with (bpow radix2 46 * u); [apply Rmult_le_compat_r; lra|]. change (/ 64) with (bpow radix2 (-6)). unfold u. rewrite <- bpow_plus. apply bpow_le. lia. }
  assert (U64 : u <= / 1024) by (change (/ 1024) with (bpow radix2 (-10)); apply bpow_le; lia).
  assert (He : 0 <= e <= / 8) by (unfold e; rewrite ulp1_u; nra).
  destruct (close_dot e _ _ dx dy ltac:(lra) (unitise_le1 (reals x)) (unitise_le1 (reals y)) Cx Cy) as [D1 D2].
  rewrite unitise_len in D1, D2. unfold reals in D1 at 4, D2 at 4. unfold reals in D1, D2. rewrite map_length, Lx in D1, D2. fold (reals x) (reals y) (reals dx) (reals dy) in D1, D2.
  pose proof (absdot_units (reals x) (reals y)) as AU. pose proof (absdot_pos (unitise Rl2 (reals x)) (unitise Rl2 (reals y))) as AP. set (ab := Rabsdot (unitise Rl2 (reals x)) (unitise Rl2 (reals y))) in *.
  rewrite Rdot_unitise in D1. pose proof eta_pos as EP.
  assert (NE : INR n * eta <= / 64 * u). { apply Rle_trans with (bpow radix2 46 * eta); [apply Rmult_le_compat_r; lra|]. change (/ 64) with (bpow radix2 (-6)). unfold eta, u. rewrite <- !bpow_plus. apply bpow_le. lia. }
  assert (ee : e * e <= / 8 * e) by nra. assert (X1 : (2 * e + e * e) * ab <= (2 * e + e * e) * 1) by (apply Rmult_le_compat_l; nra).
  assert (X2 : (1 + 2 * e + e * e) * ab <= (1 + 2 * e + e * e) * 1) by (apply Rmult_le_compat_l; nra).
  assert (Ld : length dx = n) by (apply Forall2_len in Cx; rewrite unitise_len in Cx; unfold reals in Cx; rewrite map_length in Cx; congruence).
  assert (AB : Rabsdot (reals dx) (reals dy) <= 3 / 2) by lra.
  assert (FIN : forall b d, Forall2 (close e) b d -> all_finite d) by (intros b d F; induction F as [|? ? ? ? [Q _] F IH]; constructor; auto).
  destruct (dot_error m dx dy) as [F E]; eauto.
  - rewrite Ld. lia.
  - eapply Rle_trans; [exact AB|]. apply Rle_trans with (bpow radix2 1); [change (bpow radix2 1) with 2; lra|apply bpow_le; lia].
  - split; auto. rewrite Ld, tiny_eta, ulp1_u in E. rewrite ulp1_u.
    replace (real (@dotp (F64 m) dx dy) - Rcos (reals x) (reals y)) with ((real (@dotp (F64 m) dx dy) - Rdot (reals dx) (reals dy)) + (Rdot (reals dx) (reals dy) - Rcos (reals x) (reals y))) by ring.
    eapply Rle_trans; [apply Rabs_triang|].
    assert (E2 : (INR n + 1) * (2 * u) * Rabsdot (reals dx) (reals dy) <= (INR n + 1) * (2 * u) * (3 / 2)) by (apply Rmult_le_compat_l; [nra|auto]).
    assert (EE : e = (4 * INR n + 14) * u) by (unfold e; rewrite ulp1_u; ring). nra.
Qed.
