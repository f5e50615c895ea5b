(** Accuracy of computed doubles: how far dot products, linear scores,
    normalised rows and cosines are from their exact values. *)
From Coq Require Import String Reals Lia Lra List.
From Flocq Require Import Core BinarySingleNaN.
From Verif Require Import Model.Py Model.Arith Model.F64 Model.XR Model.Utils Model.Base Model.Linear Model.NaiveBayes Model.Preprocessing Model.Pairwise.
From Verif Require Import Spec.Matrix Spec.Reals Spec.Linear Spec.Bayes Spec.Scaling Spec.Pairwise Spec.Rounding.
From Verif Require Import Proofs.Lib Proofs.Laws Proofs.Round Proofs.Unit Proofs.Arrays Proofs.Arrays2 Proofs.RealLib Proofs.Scaling Proofs.Pairwise Proofs.SumErr Proofs.DotErr Proofs.NormErr.
From Verif Require Import Props.Linear Props.Bayes Props.Scaling Props.Pairwise.
Import ListNotations.
Local Open Scope nat_scope.

Lemma affine_close : forall (m : libm) (coef : list (list (F64 m))) b row s, well_sized coef b row -> length b = length coef -> affine coef b row s ->
  length s = length coef /\ forall k w bk, nth_error coef k = Some w -> nth_error b k = Some bk ->
    exists v, nth_error s k = Some v /\ approximates_score row w bk v.
Proof.
  intros m coef b row s (Fr & LR & H) Lb [LS HS]. split; auto. intros k w bk Hw Hb. eexists. split; [apply (HS k w bk Hw Hb)|].
  destruct (H k w bk Hw Hb) as (Fw & Fb & HH). destruct (affine_error m row w bk Fr Fw Fb LR HH) as [F E]. split; [exact F|exact E].
Qed.

(** C18.  Scores are within their rounding error of the exact ones. *)
Theorem C18_error_float : forall (m : libm) (L : Type) (c : linear (F64 m) L) d K b (M : list (list (F64 m))) r,
  fitted_linear c d K b -> rect M r d -> 1 <= r -> Forall (well_sized (l_coef c) b) M ->
  exists S s, decision_function c (ll M) = Ok s /\ scores_are K S s /\
    Forall2 (fun row scores => length scores = K /\ forall k w bk, nth_error (l_coef c) k = Some w -> nth_error b k = Some bk ->
      exists v, nth_error scores k = Some v /\ approximates_score row w bk v) M S.
Proof.
  intros m L c d K b M r F RM Hr MD. destruct (C18_dense (F64 m) L c d K b M r F RM Hr) as (S & s & E & SA & AF). exists S, s. split; auto. split; auto.
  destruct F as ([LC _] & _ & _ & LB). clear - AF MD LC LB. induction AF as [|row sc M S Q AF IH]; constructor; inversion MD; subst; auto.
  eapply affine_close in Q; eauto.
Qed.
Print Assumptions C18_error_float.

Lemma fin_lt : forall x y : f64, is_finite x = true -> is_finite y = true -> (real x < real y)%R -> f_ltb x y = true /\ f_ltb y x = false /\ f_leb y x = false.
Proof.
  intros x y Fx Fy H. rewrite !f_ltb_x, f_leb_x, !b2x_fin by auto. cbn [x_ltb x_leb]. unfold real in H. unfold Rltb, Rleb. destruct (Rlt_dec _ _); [|lra]. split; auto. destruct (Rlt_dec _ _); [lra|]. destruct (Rle_dec _ _); [lra|]. auto.
Qed.

Lemma near_winner : forall (m : libm) (coef : list (list (F64 m))) (b row s : list (F64 m)) k k', length b = length coef -> length s = length coef ->
  (forall j w bj, nth_error coef j = Some w -> nth_error b j = Some bj -> exists v, nth_error s j = Some v /\ approximates_score row w bj v) ->
  clear_winner coef b row k -> best s k' -> k' = k.
Proof.
  intros m coef b row s k k' LB LS CL (w & bk & Hw & Hb & W) B. destruct (CL k w bk Hw Hb) as (vk & Hk & Fk & Ek).
  destruct (Nat.eq_dec k' k) as [|N]; auto. exfalso.
  assert (HB : exists v, nth_error s k' = Some v /\ (isnan v = true \/ forall j w, nth_error s j = Some w -> ltb v w = false)).
  { destruct B as [(v & t & -> & Nv & ->)|(h & t & v & _ & _ & Hv & _ & B & _)]; exists v; auto. }
  destruct HB as (v & Hv & B1).
  destruct (nth_error coef k') as [w'|] eqn:Hw'; [|apply nth_error_None in Hw'; apply nth_error_lt in Hv; rewrite LS in Hv; lia].
  destruct (nth_error b k') as [b'|] eqn:Hb'; [|apply nth_error_None in Hb'; apply nth_error_lt in Hv; rewrite LS, <- LB in Hv; lia].
  destruct (CL k' w' b' Hw' Hb') as (v' & Hv' & F' & E'). assert (v' = v) by congruence. subst v'.
  specialize (W k' w' b' N Hw' Hb'). apply Rabs_le_inv in Ek, E'.
  destruct (fin_lt v vk F' Fk ltac:(lra)) as [Q _].
  destruct B1 as [B1|B1]; [destruct v; discriminate|]. specialize (B1 k vk Hk). change (f_ltb v vk = false) in B1. congruence.
Qed.
Lemma close_winner : forall (m : libm) (coef : list (list (F64 m))) b row s k k', well_sized coef b row -> length b = length coef -> affine coef b row s ->
  clear_winner coef b row k -> best s k' -> k' = k.
Proof. intros m coef b row s k k' MD LB AF. destruct (affine_close m coef b row s MD LB AF) as [LS CL]. apply near_winner; auto. Qed.

(** C19.  When the exact scores separate the classes by more than their rounding
    errors, the predicted label is the one of the exact scores. *)
Theorem C19_margin_multi : forall (m : libm) (L : Type) (c : linear (F64 m) L) d K b (M : list (list (F64 m))) r,
  fitted_linear c d K b -> rect M r d -> 1 <= r -> K <> 1 -> length (l_classes c) = K -> Forall (well_sized (l_coef c) b) M ->
  exists out, linear_predict c (ll M) = Ok out /\
    Forall2 (fun row y => forall k, clear_winner (l_coef c) b row k -> nth_error (l_classes c) k = Some y) M out.
Proof.
  intros m L c d K b M r F RM Hr NK LC MD.
  destruct (C19_total m L c d K b M r F RM Hr) as (out & EO & _); [destruct (Nat.eqb_spec K 1); [contradiction|auto]|]. exists out. split; auto.
  destruct (C18_dense (F64 m) L c d K b M r F RM Hr) as (S & s & E & SA & AF). destruct SA as [[_ ->]|[-> _]]; [|contradiction].
  apply (C19_multi m L c _ S E) in EO. destruct F as ([LW _] & _ & _ & LB). rewrite <- LW in LB.
  clear - MD AF EO LB. revert out EO. induction AF as [|row sc M S A AF IH]; intros out EO; inversion EO as [|? y ? out' (k' & B & HY) EO']; subst; constructor; inversion MD; subst; auto.
  intros k W. rewrite <- (close_winner m (l_coef c) b row sc k k'); auto.
Qed.
Print Assumptions C19_margin_multi.
Theorem C19_margin_binary : forall (m : libm) (L : Type) (c : linear (F64 m) L) d w bk (M : list (list (F64 m))) r c0 c1,
  fitted_linear c d 1 [bk] -> l_coef c = [w] -> l_classes c = [c0; c1] -> rect M r d -> 1 <= r -> Forall (well_sized [w] [bk]) M ->
  exists out, linear_predict c (ll M) = Ok out /\
    Forall2 (fun row y => ((score_error row w bk < exact_score row w bk)%R -> y = c1) /\ ((exact_score row w bk < - score_error row w bk)%R -> y = c0)) M out.
Proof.
  intros m L c d w bk M r c0 c1 F HW HC RM Hr MD.
  destruct (C19_total m L c d 1 [bk] M r F RM Hr) as (out & EO & _); [rewrite HC; reflexivity|]. exists out. split; auto.
  destruct (C18_dense (F64 m) L c d 1 [bk] M r F RM Hr) as (S & s & E & SA & AF). destruct SA as [[N _]|[_ (l & -> & ->)]]; [contradiction|].
  apply (C19_binary m L c _ l E) in EO. rewrite HC in EO. rewrite HW in AF.
  clear - MD AF EO. revert M AF MD. induction EO as [|x y l out H EO IH]; intros M AF MD; inversion AF as [|row sc M' S' A AF']; subst; constructor; inversion MD; subst; auto.
  destruct (affine_close m [w] [bk] row [x] ltac:(assumption) eq_refl A) as [_ CL]. destruct (CL 0 w bk eq_refl eq_refl) as (v & Hv & Fv & Ev). injection Hv as <-. apply Rabs_le_inv in Ev.
  assert (Z : forall q : f64, real (f_ofZE 0 0) = 0%R) by reflexivity.
  split; intro B; destruct H as [[P Q]|[P Q]]; cbn [nth_error] in Q; try congruence; exfalso.
  - destruct (fin_lt (f_ofZE 0 0) x eq_refl Fv) as [G _]; [rewrite (Z x); lra|]. change (f_ltb (f_ofZE 0 0) x = false) in P. congruence.
  - destruct (fin_lt x (f_ofZE 0 0) Fv eq_refl) as (_ & G & _); [rewrite (Z x); lra|]. change (f_ltb (f_ofZE 0 0) x = true) in P. congruence.
Qed.
Print Assumptions C19_margin_binary.

Lemma real_ofZ : forall n, (Z.abs n <= 2 ^ 53)%Z -> real (f_ofZE n 0) = IZR n /\ is_finite (f_ofZE n 0) = true.
Proof. intros n H. pose proof (f_ofZ_x n H) as E. apply fin_of_b2x in E. tauto. Qed.
Lemma ulp1_small : (0 < ulp1 <= / 1024)%R.
Proof. split; [apply bpow_gt_0|]. change (/ 1024)%R with (bpow radix2 (-10)). apply bpow_le. lia. Qed.
Lemma tiny_small : (0 < tiny <= / 1024)%R.
Proof. split; [apply bpow_gt_0|]. change (/ 1024)%R with (bpow radix2 (-10)). apply bpow_le. lia. Qed.
Lemma huge_large : (1024 <= huge)%R.
Proof. change 1024%R with (bpow radix2 10). apply bpow_le. lia. Qed.
Ltac ints := unfold exact_score, score_error, score_size, reals, Rabsdot; cbn [map Rdot length];
  repeat match goal with |- context [real (f_ofZE ?n 0)] => rewrite (proj1 (real_ofZ n ltac:(cbn; lia))) end;
  repeat match goal with |- context [Rabs (IZR ?n)] => rewrite <- (abs_IZR n); cbn [Z.abs] end; cbn [INR].

(** A three-class model with two features. *)
Definition ex_lin {m : libm} : linear (F64 m) nat :=
  {| l_classes := [5; 6; 7]; l_coef := [[ofZ 1; ofZ 2]; [ofZ 3; ofZ (-1)]; [ofZ 0; ofZ 1]]; l_intercept := Some [ofZ 0; ofZ 1; ofZ 2];
     l_multi := None; l_solver := None; l_loss := None |}.

Example C19_margin_ex : forall m : libm, let b := [ofZ 0; ofZ 1; ofZ 2 : F64 m] in let row := [ofZ 4; ofZ 5 : F64 m] in
  fitted_linear (@ex_lin m) 2 3 b /\ well_sized (l_coef (@ex_lin m)) b row /\ clear_winner (l_coef (@ex_lin m)) b row 0.
Proof.
  intros m b row. unfold b, row. pose proof ulp1_small. pose proof tiny_small. pose proof huge_large. assert (FI : forall n, (Z.abs n <= 2 ^ 53)%Z -> is_finite (f_ofZE n 0) = true) by (intros; apply real_ofZ; auto).
  split; [|split].
  - split; [split; [reflexivity|repeat constructor]|]. split; [lia|]. split; reflexivity.
  - split; [repeat constructor; apply FI; cbn; lia|]. split; [cbn; lia|]. intros k w bk Hw Hb. cbn [ex_lin l_coef] in Hw.
    destruct k as [|[|[|k]]]; cbn [nth_error] in Hw, Hb; [injection Hw as <-; injection Hb as <-..|destruct k; discriminate];
    (split; [repeat constructor; apply FI; cbn; lia|]; split; [apply FI; cbn; lia|]; change (@ofZ (F64 m)) with (fun n => f_ofZE n 0); cbv beta; ints; lra).
  - exists [f_ofZE 1 0; f_ofZE 2 0], (f_ofZE 0 0). split; [reflexivity|]. split; [reflexivity|]. intros j v bj NJ Hv Hb. cbn [ex_lin l_coef] in Hv.
    destruct j as [|[|[|j]]]; cbn [nth_error] in Hv, Hb; [contradiction|injection Hv as <-; injection Hb as <-..|destruct j; discriminate];
    (change (@ofZ (F64 m)) with (fun n => f_ofZE n 0); cbv beta; ints; nra).
Qed.

(** C25.  Multinomial naive Bayes: the same for its scores and labels. *)
Theorem C25_error_float : forall (m : libm) (L : Type) (d : discrete (F64 m) L) K (M : list (list (F64 m))),
  length (d_classes d) = K -> length (d_log_prior d) = K -> length (d_log_prob d) = K -> M <> [] ->
  Forall (well_sized (d_log_prob d) (d_log_prior d)) M ->
  exists J, jll (Multinomial d) (ll M) = Ok J /\
    Forall2 (fun row scores => length scores = K /\ forall k w bk, nth_error (d_log_prob d) k = Some w -> nth_error (d_log_prior d) k = Some bk ->
      exists v, nth_error scores k = Some v /\ approximates_score row w bk v) M J /\
    (forall out, nb_predict (Multinomial d) (ll M) = Ok out ->
       Forall2 (fun row y => forall k, clear_winner (d_log_prob d) (d_log_prior d) row k -> nth_error (d_classes d) k = Some y) M out).
Proof.
  intros m L d K M H1 H2 H3 N MD. destruct (C25_multinomial m L d K M H1 H2 H3 N) as (J & AF & E & DC). exists J. split; auto. split.
  - clear - AF MD H2 H3. induction AF as [|row sc M S Q AF IH]; constructor; inversion MD; subst; auto. eapply affine_close in Q; eauto. rewrite <- H3. exact Q.
  - intros out EO. apply DC in EO. clear - MD AF EO H2 H3. revert out EO. induction AF as [|row sc M S A AF IH]; intros out EO; inversion EO as [|? y ? out' (k' & B & HY) EO']; subst; constructor; inversion MD; subst; auto.
    intros k W. rewrite <- (close_winner m (d_log_prob d) (d_log_prior d) row sc k k'); auto.
Qed.
Print Assumptions C25_error_float.

(** C61.  The linear kernel, cell by cell. *)
Theorem C61_error_float : forall (m : libm) (X Y : list (list (F64 m))) r s k, rect X r k -> rect Y s k -> 1 <= r -> 1 <= s -> (Z.of_nat k < 2 ^ 52)%Z ->
  Forall all_finite X -> Forall all_finite Y -> (forall x y, In x X -> In y Y -> (Rabsdot (reals x) (reals y) <= huge)%R) ->
  exists T, linear_kernel (ll X) (YOther (ll Y)) = Ok T /\ rect T r s /\
    forall i j x y v, nth_error X i = Some x -> nth_error Y j = Some y -> cell T i j = Some v ->
      is_finite v = true /\
      (Rabs (real v - Rdot (reals x) (reals y)) <= (INR k + 1) * ulp1 * Rabsdot (reals x) (reals y) + INR k * tiny)%R.
Proof.
  intros m X Y r s k RX RY Hr Hs HK FX FY HH. exists (table dotp X Y). split; [apply (C61_dense (F64 m) X Y r s k); auto|].
  split; [destruct RX as [<- _], RY as [<- _]; apply table_rect|].
  intros i j x y v Hx Hy Hv. rewrite table_cell in Hv. rewrite Hx, Hy in Hv. injection Hv as <-.
  destruct RX as [_ WX]. rewrite Forall_forall in WX, FX, FY. assert (IX : In x X) by (eapply nth_error_In; eauto). assert (IY : In y Y) by (eapply nth_error_In; eauto).
  pose proof (WX x IX) as LX. rewrite <- LX. apply (dot_error m x y); auto. cbn in LX |- *. lia.
Qed.
Print Assumptions C61_error_float.

(** C30.  Euclidean normalisation: entry by entry, for rows that are zero or
    whose squared norm is well inside the range of doubles. *)
Definition usable (row : list f64) : Prop := all_finite row /\ (Z.of_nat (length row) <= 2 ^ 46)%Z /\ well_scaled (reals row).
Lemma finite_nan : forall (m : libm) (M : list (list (F64 m))), Forall usable M -> Forall (Forall (fun x => isnan x = false)) M.
Proof.
  intros m M H. eapply Forall_impl; [|exact H]. intros row (F & _ & _). unfold all_finite in F. change (num (F64 m)) with f64 in *. eapply Forall_impl; [|exact F]. intros [| | |] Q; try discriminate; reflexivity.
Qed.
Lemma l2_usable : forall (m : libm) (M : list (list (F64 m))) r c, rect M r c -> 1 <= r -> Forall usable M ->
  exists D, normalize_pure (ll M) (lit "l2") 1 = Ok (ll D) /\ l2_normalised M D /\
    Forall2 (fun row d => Forall2 (close ((2 * INR (length row) + 7) * ulp1)) (unitise Rl2 (reals row)) d) M D.
Proof.
  intros m M r c RM Hr US. assert (NM : M <> []) by (destruct RM; destruct M; [cbn [length] in *; lia|discriminate]).
  destruct (l2_norms m M (finite_nan m M US)) as (ns & E & P).
  destruct (normalize_both m (lit "l2") M ns) as (D & ED & LD & _ & _); auto.
  - right; left; auto.
  - rewrite (norms_l2 M r c RM Hr). exact E.
  - apply (mapM_length _ _ _ E).
  - eapply Forall_impl; [|exact P]. intros n Hn. apply hz_ok. exact Hn.
  - exists D. split; auto. apply (C30_l2 m M r c RM Hr) in ED. destruct ED as (D' & ED & HD). apply ll_inj in ED. subst D'. split; [exact HD|].
    clear - HD US. induction HD as [|row d M D (n & E & DV) HD IH]; constructor; inversion US as [|? ? (F & LN & W) US']; subst; auto. apply (l2_row m row d n F LN W E DV).
Qed.
Theorem C30_l2_accuracy_float : forall (m : libm) (M : list (list (F64 m))) r c, rect M r c -> 1 <= r -> Forall usable M ->
  exists D, normalize_pure (ll M) (lit "l2") 1 = Ok (ll D) /\
    Forall2 (fun row d => Forall2 (fun x y => is_finite y = true /\
      (Rabs (real y - real x / Rl2 (reals row)) <= (2 * INR (length row) + 7) * ulp1 * Rabs (real x / Rl2 (reals row)) + tiny)%R) row d) M D.
Proof.
  intros m M r c RM Hr US. destruct (l2_usable m M r c RM Hr US) as (D & E & _ & H). exists D. split; auto.
  clear - H. induction H as [|row d M D H F IH]; constructor; auto. clear - H.
  assert (ET : (eta <= tiny)%R) by (rewrite tiny_eta; pose proof eta_pos; lra).
  assert (Q : unitise Rl2 (reals row) = map (fun x => real x / Rl2 (reals row))%R row).
  { unfold unitise. destruct (Reqb (Rl2 (reals row)) 0) eqn:Z.
    - apply Reqb_eq in Z. pose proof (Rl2_zero _ Z) as Z0. rewrite Z. unfold reals in *. clear - Z0. induction row; cbn [map] in *; auto. inversion Z0 as [|? ? E Z1]; subst. f_equal; auto. rewrite E. unfold Rdiv. ring.
    - unfold reals at 2. rewrite map_map. reflexivity. }
  rewrite Q in H. clear Q. set (L := Rl2 (reals row)) in *. set (e := ((2 * INR (length row) + 7) * ulp1)%R) in *. apply (Forall2_map_l (fun x : f64 => (real x / L)%R)) in H. eapply Forall2_imp; [|exact H].
  intros x y [Fy Cy]. split; auto. lra.
Qed.
Print Assumptions C30_l2_accuracy_float.

(** C59.  Cosine similarity is the cosine of the angle, up to a multiple of the
    number of features times the spacing of doubles. *)
Theorem C59_accuracy_float : forall (m : libm) (X Y : list (list (F64 m))) r s k, rect X r k -> rect Y s k -> 1 <= r -> 1 <= s ->
  Forall usable X -> Forall usable Y ->
  exists T, cosine_similarity (ll X) (YOther (ll Y)) = Ok T /\ rect T r s /\
    forall i j x y v, nth_error X i = Some x -> nth_error Y j = Some y -> cell T i j = Some v ->
      is_finite v = true /\ (Rabs (real v - Rcos (reals x) (reals y)) <= (7 * INR k + 18) * ulp1)%R.
Proof.
  intros m X Y r s k RX RY Hr Hs UX UY. destruct (l2_usable m X r k RX Hr UX) as (DX & _ & NX & CX). destruct (l2_usable m Y s k RY Hs UY) as (DY & _ & NY & CY).
  exists (table dotp DX DY). split; [apply (C59_value m X Y r s k); auto; eauto|]. pose proof (Forall2_len _ _ _ CX) as LX. pose proof (Forall2_len _ _ _ CY) as LY.
  split; [destruct RX as [<- _], RY as [<- _]; change (rect (table dotp DX DY) (@length (list f64) X) (@length (list f64) Y)); rewrite LX, LY; apply table_rect|].
  intros i j x y v Hx Hy Hv. rewrite table_cell in Hv. destruct (nth_error DX i) as [dx|] eqn:Hdx; [|discriminate]. destruct (nth_error DY j) as [dy|] eqn:Hdy; [|discriminate]. injection Hv as <-.
  apply Forall2_nth_error in CX. apply Forall2_nth_error in CY. destruct CX as [_ CX], CY as [_ CY]. specialize (CX i x dx Hx Hdx). specialize (CY j y dy Hy Hdy).
  destruct RX as [_ WX], RY as [_ WY]. rewrite Forall_forall in WX, WY, UX. assert (IX : In x X) by (eapply nth_error_In; eauto). assert (IY : In y Y) by (eapply nth_error_In; eauto).
  pose proof (WX x IX) as Lx. pose proof (WY y IY) as Ly. destruct (UX x IX) as (_ & LN & _). change (num (F64 m)) with f64 in *. rewrite Lx in CX, LN. rewrite Ly in CY.
  apply (cos_err m x y dx dy k Lx Ly LN CX CY).
Qed.
Print Assumptions C59_accuracy_float.
Theorem C59_accuracy_self_float : forall (m : libm) (X : list (list (F64 m))) r k Y, rect X r k -> 1 <= r -> Y = YNone \/ Y = YSame -> Forall usable X ->
  exists T, cosine_similarity (ll X) Y = Ok T /\ rect T r r /\
    forall i j x y v, nth_error X i = Some x -> nth_error X j = Some y -> cell T i j = Some v ->
      is_finite v = true /\ (Rabs (real v - Rcos (reals x) (reals y)) <= (7 * INR k + 18) * ulp1)%R.
Proof.
  intros m X r k Y RX Hr HY UX. destruct (C59_accuracy_float m X X r r k RX RX Hr Hr UX UX) as (T & E & RT & H). exists T. split; auto.
  apply (C59_value m X X r r k RX RX Hr Hr) in E. destruct E as (DX & DY & NX & NY & ->). apply (C59_self m X r k Y RX Hr HY). exists DX. split; auto. f_equal.
  clear - NX NY. revert DY NY. induction NX as [|x d X DX (n & E & DV) NX IH]; intros DY NY; inversion NY as [|? d' ? DY' (n' & E' & DV') NY']; subst; auto. f_equal; [|auto].
  assert (n' = n) by congruence. subst n'. clear - DV DV'. unfold divided_by in *. revert d' DV'. induction DV as [|a b x d H DV IH]; intros d' DV'; inversion DV' as [|? b' ? d'' H']; subst; auto. f_equal; [congruence|auto].
Qed.
Print Assumptions C59_accuracy_self_float.
(** Two rows, one of them zero. *)
Example C59_accuracy_ex : forall m : libm, let X := [[ofZ 3; ofZ 4]; [ofZ 0; ofZ 0 : F64 m]] in rect X 2 2 /\ Forall usable X.
Proof.
  intros m X. split; [split; [reflexivity|repeat constructor]|]. unfold X. assert (FI : forall n, (Z.abs n <= 2 ^ 53)%Z -> is_finite (f_ofZE n 0) = true) by (intros; apply real_ofZ; auto).
  constructor; [|constructor; [|constructor]]; (split; [repeat constructor; apply FI; cbn; lia|]; split; [cbn; lia|]);
  unfold well_scaled; change (@ofZ (F64 m)) with (fun n => f_ofZE n 0); cbv beta; ints.
  - right. split; [apply Rle_trans with (bpow radix2 0); [apply bpow_le; lia|change (bpow radix2 0) with 1%R; lra]|apply Rle_trans with (bpow radix2 10); [change (bpow radix2 10) with 1024%R; lra|apply bpow_le; lia]].
  - left. lra.
Qed.

(** C60.  Cosine distance, the same. *)
Lemma clip_close : forall (m : libm) (s d : F64 m) c e, clipped s d -> is_finite s = true -> (Rabs (real s - c) <= e)%R -> (-1 <= c <= 1)%R -> (0 <= e <= 1)%R ->
  is_finite d = true /\ (Rabs (real d - (1 - c)) <= e + 2 * ulp1)%R.
Proof.
  intros m s d c e CL Fs Es Hc He. unfold clipped in CL. cbv zeta in CL. pose proof u_pos as UP. pose proof u_le as UL. rewrite ulp1_u. apply Rabs_le_inv in Es.
  assert (O1 : real (f_ofZE 1 0) = 1%R /\ is_finite (f_ofZE 1 0) = true) by (apply (real_ofZ 1); cbn; lia). destruct O1 as [O1 FO].
  assert (T1 : real (f_ofZE 2 0) = 2%R /\ is_finite (f_ofZE 2 0) = true) by (apply (real_ofZ 2); cbn; lia). destruct T1 as [T1 FT].
  assert (Fo : is_finite (f_opp s) = true) by (destruct s; auto). assert (Ro : real (f_opp s) = (- real s)%R) by (unfold real, f_opp; apply B2R_Bopp).
  destruct (add_fits (f_opp s) (f_ofZE 1 0) Fo FO) as (Fe & dd & Hd & E).
  { rewrite Ro, O1, Rabs_Ropp, Rabs_R1. apply Rle_trans with (bpow radix2 3); [change (bpow radix2 3) with 8%R; assert (Rabs (real s) <= 2)%R by (apply Rabs_le; lra); nra|apply bpow_le; lia]. }
  rewrite Ro, O1 in E. change (add (opp s) one) with (f_add (f_opp s) (f_ofZE 1 0)) in CL. set (x := f_add (f_opp s) (f_ofZE 1 0)) in *. apply Rabs_le_inv in Hd.
  assert (EX : (- (e + 4 * u) <= real x - (1 - c) <= e + 4 * u)%R) by (rewrite E; nra).
  change ((f_ltb x (f_ofZE 0 0) = true /\ d = f_ofZE 0 0) \/ (f_ltb x (f_ofZE 0 0) = false /\ f_ltb (f_ofZE 2 0) x = true /\ d = f_ofZE 2 0) \/ (f_ltb x (f_ofZE 0 0) = false /\ f_ltb (f_ofZE 2 0) x = false /\ d = x)) in CL.
  assert (Z : real (f_ofZE 0 0) = 0%R) by reflexivity.
  assert (LT : forall a b : f64, is_finite a = true -> is_finite b = true -> f_ltb a b = true -> (real a < real b)%R).
  { intros a b Fa Fb H. destruct (Rlt_dec (real a) (real b)); auto. rewrite f_ltb_x, !b2x_fin in H by auto. cbn [x_ltb] in H. unfold Rltb in H. destruct (Rlt_dec (B2R a) (B2R b)); [contradiction|discriminate]. }
  destruct CL as [[H ->]|[(H1 & H2 & ->)|(H1 & H2 & ->)]].
  - apply LT in H; auto. split; auto. apply Rabs_le. rewrite Z in *. lra.
  - apply LT in H2; auto. split; auto. apply Rabs_le. rewrite T1 in *. lra.
  - split; auto. apply Rabs_le. lra.
Qed.
Definition clip_of {m : libm} (v : F64 m) : F64 m := let e := add (opp v) one in if ltb e zero then zero else if ltb (ofZ 2) e then ofZ 2 else e.
Lemma clip_of_ok : forall (m : libm) (v : F64 m), clipped v (clip_of v).
Proof. intros m v. unfold clipped, clip_of. cbv zeta. destruct (ltb (add (opp v) one) zero); auto. destruct (ltb (ofZ 2) (add (opp v) one)); auto 6. Qed.
Theorem C60_accuracy_float : forall (m : libm) (X Y : list (list (F64 m))) r s k, rect X r k -> rect Y s k -> 1 <= r -> 1 <= s ->
  Forall usable X -> Forall usable Y ->
  exists D, cosine_distances (ll X) (YOther (ll Y)) = Ok D /\ rect D r s /\
    forall i j x y v, nth_error X i = Some x -> nth_error Y j = Some y -> cell D i j = Some v ->
      is_finite v = true /\ (Rabs (real v - (1 - Rcos (reals x) (reals y))) <= (7 * INR k + 20) * ulp1)%R.
Proof.
  intros m X Y r s k RX RY Hr Hs UX UY. destruct (C59_accuracy_float m X Y r s k RX RY Hr Hs UX UY) as (T & E & RT & H).
  set (D := map (map clip_of) T).
  exists D. split; [|split].
  - apply (C60_value m X Y r s k RX RY Hr Hs). exists T. split; auto. unfold D. apply Forall2_map_r, Forall2_diag. intros row _. apply Forall2_map_r, Forall2_diag. intros v _. apply clip_of_ok.
  - destruct RT as [L1 L2]. split; [unfold D; rewrite map_length; auto|]. unfold D. apply Forall_map. eapply Forall_impl; [|exact L2]. intros; cbn. rewrite map_length. auto.
  - intros i j x y v Hx Hy Hv. unfold D, cell in Hv. rewrite nth_error_map in Hv. destruct (nth_error T i) as [row|] eqn:Hi; [|discriminate]. cbn [option_map] in Hv. rewrite nth_error_map in Hv. destruct (nth_error row j) as [w|] eqn:Hj; [|discriminate].
    cbn [option_map] in Hv. injection Hv as Hv. destruct (H i j x y w Hx Hy) as [Fw Ew]; [unfold cell; rewrite Hi; exact Hj|].
    replace ((7 * INR k + 20) * ulp1)%R with ((7 * INR k + 18) * ulp1 + 2 * ulp1)%R by ring.
    assert (LN : (Z.of_nat k <= 2 ^ 46)%Z).
    { destruct RX as [_ WX]. rewrite Forall_forall in WX, UX. assert (IX : In x X) by (eapply nth_error_In; eauto). destruct (UX x IX) as (_ & Q & _). pose proof (WX x IX) as Lx. change (num (F64 m)) with f64 in *. rewrite Lx in Q. exact Q. }
    assert (n0 : (0 <= INR k)%R) by apply pos_INR. pose proof u_pos as UP. assert (nB : (INR k <= bpow radix2 46)%R) by (apply INR_le_bpow; lia).
    assert (NU : (INR k * u <= / 64)%R).
    { apply Rle_trans with (bpow radix2 46 * u)%R; [apply Rmult_le_compat_r; lra|]. change (/ 64)%R with (bpow radix2 (-6)). unfold u. rewrite <- bpow_plus. apply bpow_le. lia. }
    assert (U64 : (u <= / 1024)%R) by (change (/ 1024)%R with (bpow radix2 (-10)); apply bpow_le; lia).
    apply (clip_close m w v (Rcos (reals x) (reals y))); auto.
    + rewrite <- Hv. apply clip_of_ok.
    + apply Rcos_bound.
    + rewrite ulp1_u. nra.
Qed.
Print Assumptions C60_accuracy_float.
(** Models and data to which the theorems above apply. *)
Definition ex_nb {m : libm} : discrete (F64 m) nat :=
  {| d_classes := [8; 9]; d_log_prior := [ofZ (-1); ofZ (-2)]; d_log_prob := [[ofZ (-1); ofZ (-2)]; [ofZ (-3); ofZ (-1)]] |}.
Example C25_error_ex : forall m : libm, let row := [ofZ 4; ofZ 5 : F64 m] in
  well_sized (d_log_prob (@ex_nb m)) (d_log_prior (@ex_nb m)) row /\ clear_winner (d_log_prob (@ex_nb m)) (d_log_prior (@ex_nb m)) row 0.
Proof.
  intros m row. unfold row. pose proof ulp1_small. pose proof tiny_small. pose proof huge_large. assert (FI : forall n, (Z.abs n <= 2 ^ 53)%Z -> is_finite (f_ofZE n 0) = true) by (intros; apply real_ofZ; auto).
  split.
  - split; [repeat constructor; apply FI; cbn; lia|]. split; [cbn; lia|]. intros k w bk Hw Hb. cbn [ex_nb d_log_prob d_log_prior] in Hw, Hb.
    destruct k as [|[|k]]; cbn [nth_error] in Hw, Hb; [injection Hw as <-; injection Hb as <-..|destruct k; discriminate];
    (split; [repeat constructor; apply FI; cbn; lia|]; split; [apply FI; cbn; lia|]; change (@ofZ (F64 m)) with (fun n => f_ofZE n 0); cbv beta; ints; lra).
  - exists [f_ofZE (-1) 0; f_ofZE (-2) 0], (f_ofZE (-1) 0). split; [reflexivity|]. split; [reflexivity|]. intros j v bj NJ Hv Hb. cbn [ex_nb d_log_prob d_log_prior] in Hv, Hb.
    destruct j as [|[|j]]; cbn [nth_error] in Hv, Hb; [contradiction|injection Hv as <-; injection Hb as <-|destruct j; discriminate];
    (change (@ofZ (F64 m)) with (fun n => f_ofZE n 0); cbv beta; ints; nra).
Qed.
Definition ex_bin {m : libm} : linear (F64 m) nat :=
  {| l_classes := [5; 6]; l_coef := [[ofZ 1; ofZ 2]]; l_intercept := Some [ofZ (-3)]; l_multi := None; l_solver := None; l_loss := None |}.
Example C19_margin_binary_ex : forall m : libm, fitted_linear (@ex_bin m) 2 1 [ofZ (-3)] /\
  Forall (well_sized [[f_ofZE 1 0; f_ofZE 2 0]] [f_ofZE (-3) 0]) [[f_ofZE 1 0; f_ofZE 2 0]; [f_ofZE 0 0; f_ofZE 1 0]] /\
  (score_error [f_ofZE 1 0; f_ofZE 2 0] [f_ofZE 1 0; f_ofZE 2 0] (f_ofZE (-3) 0) < exact_score [f_ofZE 1 0; f_ofZE 2 0] [f_ofZE 1 0; f_ofZE 2 0] (f_ofZE (-3) 0))%R /\
  (exact_score [f_ofZE 0 0; f_ofZE 1 0] [f_ofZE 1 0; f_ofZE 2 0] (f_ofZE (-3) 0) < - score_error [f_ofZE 0 0; f_ofZE 1 0] [f_ofZE 1 0; f_ofZE 2 0] (f_ofZE (-3) 0))%R.
Proof.
  intro m. pose proof ulp1_small. pose proof tiny_small. pose proof huge_large. assert (FI : forall n, (Z.abs n <= 2 ^ 53)%Z -> is_finite (f_ofZE n 0) = true) by (intros; apply real_ofZ; auto).
  split; [split; [split; [reflexivity|repeat constructor]|]; split; [lia|]; split; reflexivity|]. split.
  - constructor; [|constructor; [|constructor]]; (split; [repeat constructor; apply FI; cbn; lia|]; split; [cbn; lia|]; intros k w bk Hw Hb;
    destruct k as [|k]; cbn [nth_error] in Hw, Hb; [injection Hw as <-; injection Hb as <-|destruct k; discriminate];
    split; [repeat constructor; apply FI; cbn; lia|]; split; [apply FI; cbn; lia|]; change (@ofZ (F64 m)) with (fun n => f_ofZE n 0); cbv beta; ints; lra).
  - split; ints; nra.
Qed.
Example C61_error_ex : forall m : libm, let X := [[ofZ 3; ofZ (-4)]; [ofZ 0; ofZ 1 : F64 m]] in
  rect X 2 2 /\ Forall all_finite X /\ forall x y, In x X -> In y X -> (Rabsdot (reals x) (reals y) <= huge)%R.
Proof.
  intros m X. pose proof huge_large. assert (FI : forall n, (Z.abs n <= 2 ^ 53)%Z -> is_finite (f_ofZE n 0) = true) by (intros; apply real_ofZ; auto).
  split; [split; [reflexivity|repeat constructor]|]. split; [repeat constructor; apply FI; cbn; lia|].
  intros x y [<-|[<-|[]]] [<-|[<-|[]]]; change (@ofZ (F64 m)) with (fun n => f_ofZE n 0); cbv beta; ints; lra.
Qed.
