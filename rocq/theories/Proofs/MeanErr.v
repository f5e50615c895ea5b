(** Entry-wise rounding errors of normalised counts and of means. *)
From Coq Require Import Reals Lra Lia ZArith Bool List.
From Flocq Require Import Core BinarySingleNaN.
From Verif Require Import Model.Py Model.Arith Model.F64 Model.XR.
From Verif Require Import Spec.Matrix Spec.Ensembles Spec.Reals Spec.Rounding Spec.Trees Spec.Shares.
From Verif Require Import Proofs.Lib Proofs.Laws Proofs.Round Proofs.Unit Proofs.SumErr.
Import ListNotations.
Local Open Scope R_scope.

Lemma inv_bound : forall N, 0 <= N <= / 2 -> / (1 - N) <= 1 + 2 * N.
Proof. intros N H. apply Rmult_le_reg_l with (1 - N); [lra|]. rewrite Rinv_r by lra. nra. Qed.

(** A count over the computed sum of [n] counts. *)
Lemma share_err : forall (n : nat) t s x w, (Z.of_nat n <= 2 ^ 52)%Z -> 0 <= t -> 0 < s -> 0 <= x ->
  t * (1 - u) ^ n <= s <= t * (1 + u) ^ n -> w = rnd (x / s) ->
  0 < t /\ Rabs (w - x / t) <= (INR n + 1) * ulp1 * (x / t) + eta.
Proof.
  intros n t s x w Hn Ht Hs Hx [S1 S2] Ew. pose proof u_pos. pose proof u_le. pose proof (pos_INR n).
  pose proof (INR_bound n Hn) as B. pose proof (pow_lo n) as P1. pose proof (pow_hi n ltac:(lra)) as P2.
  assert (Tp : 0 < t). { destruct (Req_dec t 0) as [->|]; [rewrite Rmult_0_l in S2; lra|lra]. } split; auto.
  set (N := INR n * u) in *. assert (N0 : 0 <= N) by (unfold N; nra).
  assert (X0 : 0 <= x / t) by (apply Rmult_le_pos; [auto|apply Rlt_le, Rinv_0_lt_compat; auto]).
  assert (Q1 : t / s <= / (1 - N)).
  { apply Rmult_le_reg_r with s; [auto|]. unfold Rdiv. rewrite Rmult_assoc, Rinv_l by lra. apply Rmult_le_reg_l with (1 - N); [lra|].
    rewrite <- (Rmult_assoc (1 - N) (/ (1 - N))), Rinv_r, Rmult_1_l by lra. nra. }
  assert (Q2 : 1 - N <= t / s).
  { apply Rmult_le_reg_r with s; [auto|]. unfold Rdiv. rewrite Rmult_assoc, Rinv_l by lra. rewrite Rmult_1_r.
    apply Rle_trans with ((1 - N) * (t * (1 + u) ^ n)); [apply Rmult_le_compat_l; lra|].
    apply Rle_trans with ((1 - N) * (t * / (1 - N))); [apply Rmult_le_compat_l; [lra|apply Rmult_le_compat_l; lra]|]. right. field. lra. }
  pose proof (inv_bound N ltac:(lra)) as Q3.
  destruct (rnd_err (x / s)) as (d & e & Hd & He & R). rewrite Ew, R. apply Rabs_le_inv in Hd. apply Rabs_le_inv in He.
  replace (x / s) with (x / t * (t / s)) by (field; lra). set (y := x / t) in *. set (r := t / s) in *.
  replace ((INR n + 1) * ulp1) with (2 * N + 2 * u) by (rewrite ulp1_u; unfold N; ring).
  assert (Z : Rabs (r * (1 + d) - 1) <= 2 * N + 2 * u) by (apply Rabs_le; nra).
  replace (y * r * (1 + d) + e - y) with (y * (r * (1 + d) - 1) + e) by ring.
  eapply Rle_trans; [apply Rabs_triang|]. rewrite Rabs_mult, (Rabs_pos_eq y) by auto.
  assert (Rabs e <= eta) by (apply Rabs_le; lra). nra.
Qed.

Lemma shares_err : forall (es p : list f64), (Z.of_nat (length es) <= 2 ^ 52)%Z -> es <> [] ->
  Forall (fun x => f_leb (f_ofZE 0 0) x = true) es -> is_finite (fold_left f_add es (f_ofZE 0 0)) = true ->
  Forall2 (fun e q => f_div e (fold_left f_add es (f_ofZE 0 0)) = Ok q /\ is_finite q = true) es p ->
  accurate ((INR (length es) + 1) * ulp1) p (shares es) /\ Forall (fun x => 0 <= x <= 1) (shares es).
Proof.
  intros es p L N H0 F D. set (s := fold_left f_add es (f_ofZE 0 0)) in *.
  pose proof (fold_fin_inv _ _ F) as [_ Fes].
  assert (P : Forall (fun x : f64 => 0 <= B2R x) es).
  { rewrite Forall_forall in *. intros x Hx. apply nonneg_real; auto. }
  assert (Z0 : B2R (f_ofZE 0 0) = 0) by reflexivity.
  pose proof (fold_err es (f_ofZE 0 0) F ltac:(lra) P) as E. rewrite Z0, Rplus_0_l in E. fold s in E.
  assert (SN : 0 <= Rsum (map B2R es)) by (apply Rsum_nonneg, Forall_map; auto).
  assert (S0 : 0 <= B2R s). { pose proof u_pos. pose proof u_le. assert (0 <= (1 - u) ^ length es) by (apply pow_le; lra). nra. }
  assert (SP : B2R s <> 0).
  { clear - D N F Fes. clearbody s. destruct D as [|e q es p [D Fq] _]; [elim N; reflexivity|]. inversion Fes; subst. apply (div_fin e s q); auto. }
  assert (ST : 0 < B2R s) by lra. change (Rsum (map B2R es)) with (Rsum (reals es)) in *.
  assert (G : 0 < Rsum (reals es) /\ forall x : f64, 0 <= B2R x -> forall w, w = rnd (B2R x / B2R s) -> Rabs (w - B2R x / Rsum (reals es)) <= (INR (length es) + 1) * ulp1 * (B2R x / Rsum (reals es)) + eta).
  { split; [apply (share_err (length es) (Rsum (reals es)) (B2R s) 0 (rnd (0 / B2R s))); auto; lra|].
    intros x Hx w Hw. apply (share_err (length es) (Rsum (reals es)) (B2R s) (B2R x) w); auto. }
  destruct G as [TP G]. split.
  - assert (TE : eta <= tiny) by (apply bpow_le; lia). unfold shares, accurate. set (T := Rsum (reals es)) in *. clearbody T. set (b := (INR (length es) + 1) * ulp1) in *. clearbody b.
    clear - D G P Fes F TE. clearbody s. induction D as [|e q es p [D Fq] DD IH]; [constructor|]. inversion P; inversion Fes; subst. cbn [reals map]. constructor; [|apply IH; auto].
    split; auto. destruct (div_fin e s q) as [_ V]; auto. specialize (G e ltac:(auto) _ V). unfold real. lra.
  - unfold shares. apply Forall_map. apply Forall_forall. intros x Hx.
    assert (X : 0 <= x <= Rsum (reals es)).
    { clear - P Hx. revert Hx. induction P as [|e es He P IH]; intro Hx; [destruct Hx|]. cbn [reals map Rsum] in *.
      assert (0 <= Rsum (map real es)) by (apply Rsum_nonneg, Forall_map; auto). unfold real in *.
      destruct Hx as [<-|Hx]; [lra|]. specialize (IH Hx). unfold reals, real in IH. lra. }
    assert (I : 0 < / Rsum (reals es)) by (apply Rinv_0_lt_compat; auto). split; [apply Rmult_le_pos; lra|].
    apply Rmult_le_reg_r with (Rsum (reals es)); [auto|]. unfold Rdiv. rewrite Rmult_assoc, Rinv_l by lra. lra.
Qed.

(** The mean of [K] numbers of [0,1]. *)
Lemma Rsum_close : forall (vs : list f64) (xs : list R) e, Forall2 (fun v x => Rabs (real v - x) <= e) vs xs ->
  Rabs (Rsum (reals vs) - Rsum xs) <= INR (length vs) * e.
Proof.
  intros vs xs e H. induction H as [|v x vs xs B H IH]; [cbn; rewrite Rminus_0_r, Rabs_R0; lra|].
  cbn [reals map Rsum length] in *. rewrite S_INR. unfold reals in IH. replace (real v + Rsum (map real vs) - (x + Rsum xs)) with ((real v - x) + (Rsum (map real vs) - Rsum xs)) by ring.
  eapply Rle_trans; [apply Rabs_triang|]. lra.
Qed.
Lemma mean_cell : forall (K : nat) (v : f64) (t : list f64) (q : f64) (xs : list R) e, K = S (length t) -> (Z.of_nat K <= 2 ^ 52)%Z ->
  Forall (fun x : f64 => 0 <= B2R x <= 1) (v :: t) ->
  f_div (fold_left f_add t v) (f_ofZE (Z.of_nat K) 0) = Ok q -> is_finite q = true ->
  Forall2 (fun v x => Rabs (real v - x) <= e) (v :: t) xs ->
  Rabs (real q - Rmean xs) <= e + (INR K + 1) * ulp1.
Proof.
  intros K v t q xs e EK BK HV D Fq HX.
  assert (KR : B2R (f_ofZE (Z.of_nat K) 0) = INR K /\ is_finite (f_ofZE (Z.of_nat K) 0) = true).
  { assert (X : b2x (f_ofZE (Z.of_nat K) 0) = XFin (IZR (Z.of_nat K))) by (apply f_ofZ_x; lia). rewrite <- INR_IZR_INZ in X.
    assert (Fi : is_finite (f_ofZE (Z.of_nat K) 0) = true). { destruct (f_ofZE (Z.of_nat K) 0) as [|[]| |]; auto; discriminate. }
    rewrite (b2x_fin _ Fi) in X. injection X as X. auto. }
  destruct KR as [KR KF]. assert (KP : 1 <= INR K) by (apply (le_INR 1); lia).
  pose proof u_pos as UP. pose proof u_le as UL. pose proof (INR_bound K BK) as B.
  pose proof (div_fin_inv _ _ _ D Fq KF) as FS. destruct (div_fin _ _ _ FS KF D Fq) as [_ Eq]. rewrite KR in Eq.
  assert (NV : Forall (fun x : f64 => 0 <= B2R x) t /\ 0 <= B2R v).
  { inversion HV; subst. split; [|tauto]. eapply Forall_impl; [|eassumption]. cbn. intros; tauto. }
  destruct NV as [Nt Nv]. pose proof (fold_err t v FS Nv Nt) as FE.
  pose proof (pow_lo (length t)) as P1. pose proof (pow_hi (length t)) as P2.
  set (s := B2R (fold_left f_add t v)) in *. set (a := B2R v + Rsum (map B2R t)) in *.
  assert (A : 0 <= a <= INR K).
  { unfold a. rewrite EK, S_INR. inversion HV as [|? ? Hv Ht]; subst. clear - Hv Ht. assert (0 <= Rsum (map B2R t) <= INR (length t)); [|lra].
    induction Ht as [|x t Hx Ht IH]; [cbn; lra|]. cbn [map Rsum length]. rewrite S_INR. lra. }
  assert (KN : INR (length t) = INR K - 1) by (rewrite EK, S_INR; ring). rewrite KN in P1, P2.
  set (N := (INR K - 1) * u) in *. assert (N0 : 0 <= N <= / 2) by (unfold N; split; nra).
  specialize (P2 ltac:(lra)). pose proof (inv_bound N N0) as P3.
  assert (IK : 0 < / INR K) by (apply Rinv_0_lt_compat; lra).
  assert (M : 0 <= a / INR K <= 1).
  { split; [apply Rmult_le_pos; lra|]. apply Rmult_le_reg_r with (INR K); [lra|]. unfold Rdiv. rewrite Rmult_assoc, Rinv_l by lra. lra. }
  destruct (rnd_err (s / INR K)) as (d & h & Hd & Hh & R). rewrite <- Eq in R. apply Rabs_le_inv in Hd. apply Rabs_le_inv in Hh.
  assert (S1 : a / INR K * (1 - N) <= s / INR K <= a / INR K * (1 + 2 * N)).
  { assert (a * (1 - N) <= s <= a * (1 + 2 * N)) by (destruct FE as [F1 F2]; nra). unfold Rdiv. split; nra. }
  assert (HE : eta <= u / 4). { unfold eta, u. replace (bpow radix2 (-53) / 4) with (bpow radix2 (-55)); [apply bpow_le; lia|]. unfold Rdiv. change (/4) with (bpow radix2 (-2)). rewrite <- bpow_plus. reflexivity. }
  assert (Q : Rabs (real q - a / INR K) <= (INR K + 1) * ulp1).
  { unfold real. rewrite R. replace ((INR K + 1) * ulp1) with (2 * N + 4 * u) by (rewrite ulp1_u; unfold N; ring).
    set (y := a / INR K) in *. set (z := s / INR K) in *. apply Rabs_le.
    assert (Z : - N <= z - y <= 2 * N) by (split; nra). assert (z <= 2) by nra. assert (0 <= z) by nra. split; nra. }
  pose proof (Rsum_close _ _ _ HX) as C. pose proof (Forall2_len _ _ _ HX) as LX. cbn [length] in LX, C. rewrite <- EK in LX, C.
  unfold Rmean. rewrite <- LX. change (Rsum (reals (v :: t))) with a in C.
  assert (C' : Rabs (a / INR K - Rsum xs / INR K) <= e).
  { replace (a / INR K - Rsum xs / INR K) with ((a - Rsum xs) / INR K) by (field; lra). unfold Rdiv. rewrite Rabs_mult, (Rabs_pos_eq (/ INR K)) by lra.
    apply Rmult_le_reg_r with (INR K); [lra|]. rewrite Rmult_assoc, Rinv_l by lra. lra. }
  replace (real q - Rsum xs / INR K) with ((real q - a / INR K) + (a / INR K - Rsum xs / INR K)) by ring.
  eapply Rle_trans; [apply Rabs_triang|]. lra.
Qed.
