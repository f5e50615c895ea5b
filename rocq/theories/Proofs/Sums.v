(** Row sums of the modelled functions, on doubles. *)
From Coq Require Import Reals Lra Lia ZArith Bool List.
From Flocq Require Import Core BinarySingleNaN.
From Verif Require Import Model.Py Model.Arith Model.F64 Model.XR Model.Utils Model.Base Model.Tree Model.Ensemble.
From Verif Require Import Spec.Matrix Spec.Ensembles Spec.Reals Spec.Rounding Spec.Libm Spec.Trees Spec.Scaling.
From Verif Require Import Proofs.Lib Proofs.Laws Proofs.Round Proofs.Unit Proofs.Arrays Proofs.Arrays2 Proofs.RealLib Proofs.Argmax Proofs.Ensemble Proofs.Tree Proofs.SumErr.
Import ListNotations.

Section S.
  Context (m : libm).
  Local Notation F := (F64 m).
  Definition in_unit (x : F) : Prop := leb zero x = true /\ leb x one = true.

  Lemma in_unit_fin : forall x : F, in_unit x -> is_finite x = true.
  Proof. intros x [H0 H1]. apply unit_fin; auto. Qed.

  Lemma in_unit_iff : forall x : F, in_unit x <-> is_finite x = true /\ (0 <= real x <= 1)%R.
  Proof.
    intro x. split.
    - intros H. pose proof (in_unit_fin x H) as Fx. destruct H as [H0 H1]. split; auto. split; [apply nonneg_real; auto|].
      change (f_leb x (f_ofZE 1 0) = true) in H1. rewrite f_leb_x, b2x_one, b2x_fin in H1 by auto. apply Rleb_le. exact H1.
    - intros [Fx [H0 H1]]. split; [change (f_leb (f_ofZE 0 0) x = true)|change (f_leb x (f_ofZE 1 0) = true)]; rewrite f_leb_x, ?b2x_zero, ?b2x_one, b2x_fin by auto; apply Rleb_le; auto.
  Qed.
  Lemma near_intro : forall e (l : list F), Forall in_unit l -> sums_to_one e l -> near_distribution e l.
  Proof. intros e l U [_ S]. split; auto. eapply Forall_impl; [|exact U]. intros x. apply in_unit_iff. Qed.
  Lemma near_elim : forall e (l : list F), near_distribution e l -> Forall in_unit l /\ sums_to_one e l.
  Proof.
    intros e l [U S]. split; [|split; auto]; (eapply Forall_impl; [|exact U]).
    - intros x. apply in_unit_iff.
    - cbn. tauto.
  Qed.

  Lemma normalised_sums : forall es p : list F, (Z.of_nat (length es) <= 2 ^ 52)%Z -> es <> [] ->
    Forall (fun x => leb zero x = true) es -> is_finite (psum es : F) = true ->
    Forall2 (fun e q => div e (psum es) = Ok q) es p -> Forall in_unit p ->
    sums_to_one ((INR (length es) + 2) * ulp1)%R p.
  Proof.
    intros es p L N P Fi H U. apply normalised_sum; auto. unfold psum in *.
    assert (G : Forall2 (fun e q => div e (psum es : F) = Ok q /\ is_finite q = true) es p).
    { unfold psum. clear - H U. revert H. generalize (fold_left (add (a:=F)) es zero). intros s H. induction H; inversion U; subst; constructor; auto using in_unit_fin. }
    exact G.
  Qed.

  Lemma psum_zero : forall e : list F, Forall (fun q => leb zero q = true) e ->
    (eqb (psum e) zero = true <-> Forall (fun q => eqb q zero = true) e).
  Proof.
    intros e P. split.
    - intro Z. apply Forall_forall. intros q Hq. destruct (psum_ge (F64_unit m) e P) as [_ G]. specialize (G q Hq).
      rewrite Forall_forall in P. pose proof (P q Hq) as Pq.
      assert (Q : leb q zero = true) by (apply (leb_trans (F64_ord m)) with (psum e); auto; apply (eqb_leb (F64_ord m)); auto).
      change (f_leb (f_ofZE 0 0) q = true) in Pq. change (f_leb q (f_ofZE 0 0) = true) in Q. change (f_eqb q (f_ofZE 0 0) = true).
      rewrite f_leb_x in Pq, Q. rewrite f_eqb_x. rewrite b2x_zero in *. destruct (b2x q); try discriminate. apply Rleb_le in Pq, Q. apply Reqb_eq. lra.
    - intro Z. unfold psum. assert (G : forall a : F, eqb a zero = true -> eqb (fold_left add e a) zero = true).
      { clear P. induction Z as [|q e Hq Z IH]; intros a Ha; auto. cbn [fold_left]. apply IH.
        change (f_eqb q (f_ofZE 0 0) = true) in Hq. change (f_eqb a (f_ofZE 0 0) = true) in Ha. change (f_eqb (f_add a q) (f_ofZE 0 0) = true).
        rewrite f_eqb_x, b2x_zero in *. rewrite f_add_x. destruct (b2x q); try discriminate. destruct (b2x a); try discriminate. apply Reqb_eq in Hq, Ha. subst.
        cbn [x_add xround]. rewrite Rplus_0_l. replace (fround 0) with (XFin 0); [apply Reqb_eq; auto|]. symmetry. exact (fround_B2R (B754_zero false)). }
      apply G. reflexivity.
  Qed.

  Lemma softmax_sums : exp_nonneg m -> forall l es p : list F, l <> [] -> (Z.of_nat (length l) <= 2 ^ 52)%Z ->
    Forall2 (fun x e => is_finite x = true /\ m_exp m x = Some e) l es ->
    finite (psum es) -> eqb (psum es) zero = false -> sfmax l = Ok p ->
    sums_to_one ((INR (length l) + 2) * ulp1)%R p.
  Proof.
    intros HE l es p N L H Fi NZ E. destruct (sfmax_float m HE l es H Fi NZ) as (p' & E' & _ & U). rewrite E' in E. injection E as ->.
    assert (Le : length es = length l) by (symmetry; apply (Forall2_len _ _ _ H)).
    unfold sfmax in E'.
    assert (X : mapM safe_exp l = Ok es).
    { apply mapM_Forall2. eapply Forall2_imp; [|exact H]. simpl. intros x e [Fx Ee]. unfold safe_exp. simpl. unfold f_exp.
      destruct x; try discriminate; rewrite Ee; auto. }
    rewrite X in E'. cbn [bind] in E'. apply mapM_Forall2 in E'. rewrite <- Le. apply normalised_sums; auto.
    - lia.
    - destruct es; [destruct l; [congruence|discriminate]|discriminate].
    - clear -H HE. induction H as [|x e l es [Fx Ee] H IH]; constructor; auto.
      destruct (HE _ _ Fx Ee) as [Fe Ve]. unfold zero, ofZ. simpl. rewrite f_leb_x, b2x_zero, b2x_fin by auto. simpl. apply Rleb_le; auto.
    - apply (proj1 (f_finite_iff (psum es : F))). exact Fi.
  Qed.

  Lemma pair_sums : forall p : F, in_unit p -> sums_to_one (ulp1 / 2)%R [sub one p; p].
  Proof.
    intros p [H0 H1]. destruct (one_minus_unit m p H0 H1) as [G0 G1]. apply one_minus_sum; auto. apply (unit_fin (sub one p : F)); auto.
  Qed.

  (** Row [i] of the mean. *)
  Lemma Rsum_app : forall a b, Rsum (a ++ b) = (Rsum a + Rsum b)%R.
  Proof. induction a; intro b; cbn; [ring|]. rewrite IHa. ring. Qed.

  Lemma cells_cons : forall (P : list (list F)) Ps i j vs, cells (P :: Ps) i j vs ->
    exists v t, vs = v :: t /\ cell P i j = Some v /\ cells Ps i j t.
  Proof. intros P Ps i j vs H. inversion H; subst. eauto. Qed.

  (** Summing the cells of row [i] by column is summing them by matrix. *)
  Lemma swap_sums : forall (Ps : list (list (list F))) i c (e : R), (forall P, In P Ps -> exists row, nth_error P i = Some row /\ length row = c /\ (Rabs (Rsum (map real row) - 1) <= e)%R) ->
    forall vss, length vss = c -> (forall j vs, nth_error vss j = Some vs -> cells Ps i j vs) ->
    (Rabs (Rsum (map (fun vs => Rsum (map real vs)) vss) - INR (length Ps)) <= INR (length Ps) * e)%R.
  Proof.
    induction Ps as [|P Ps IH]; intros i c e HP vss LV HV.
    - assert (Z : Rsum (map (fun vs => Rsum (map real vs)) vss) = 0%R).
      { assert (N : Forall (fun vs => vs = []) vss). { apply Forall_forall. intros vs Hv. apply In_nth_error in Hv. destruct Hv as [j Hj]. specialize (HV j vs Hj). inversion HV. auto. }
        clear - N. induction N as [|vs vss -> N IH]; cbn; [auto|]. rewrite IH. ring. }
      rewrite Z. cbn. rewrite Rminus_0_r, Rabs_R0. lra.
    - destruct (HP P (or_introl eq_refl)) as (row & Er & Lr & Hr).
      assert (T : exists tss, vss = map (fun x => fst x :: snd x) (combine row tss) /\ length tss = c /\ forall j ts, nth_error tss j = Some ts -> cells Ps i j ts).
      { exists (map (@tl _) vss). rewrite map_length. split; [|split; auto].
        - apply list_eq_nth. intro j. rewrite nth_error_map'. destruct (nth_error vss j) as [vs|] eqn:Ej.
          + destruct (cells_cons P Ps i j vs (HV j vs Ej)) as (v & t & -> & Ev & _). unfold cell in Ev. rewrite Er in Ev.
            rewrite nth_error_combine, Ev, nth_error_map', Ej. reflexivity.
          + rewrite nth_error_combine. rewrite nth_error_map', Ej. destruct (nth_error row j); reflexivity.
        - intros j ts Hj. rewrite nth_error_map' in Hj. destruct (nth_error vss j) as [vs|] eqn:Ej; [|discriminate]. injection Hj as <-.
          destruct (cells_cons P Ps i j vs (HV j vs Ej)) as (v & t & -> & _ & Ct). exact Ct. }
      destruct T as (tss & -> & Lt & Ct). specialize (IH i c e (fun Q HQ => HP Q (or_intror HQ)) tss Lt Ct).
      assert (Q : Rsum (map (fun vs => Rsum (map real vs)) (map (fun x => fst x :: snd x) (combine row tss))) = (Rsum (map real row) + Rsum (map (fun vs => Rsum (map real vs)) tss))%R).
      { rewrite <- Lt in Lr. clear - Lr. revert tss Lr. induction row as [|x row IH]; intros [|t tss] L; cbn in *; try lia; [ring|]. rewrite IH by lia. unfold real. ring. }
      rewrite Q. cbn [length]. rewrite S_INR. apply Rabs_le_inv in Hr. apply Rabs_le_inv in IH. apply Rabs_le. lra.
  Qed.

  Lemma mean_sums : forall Ps (P : list (list F)) r c e, Ps <> [] -> (Z.of_nat (length Ps) <= 2 ^ 52)%Z -> (Z.of_nat c <= 2 ^ 52)%Z -> mean_of Ps P r c ->
    Forall (fun Q => rect Q r c) Ps -> (0 <= e <= 1)%R ->
    Forall (Forall (fun row => Forall in_unit row /\ sums_to_one e row)) Ps ->
    Forall (sums_to_one (e + (2 * INR (length Ps) + 1) * ulp1)%R) P.
  Proof.
    intros Ps P r c e N BK Bc HM HR He HP.
    assert (U : Forall (Forall in_unit) P).
    { apply (mean_unit (F64_unit m) Ps P r c); auto; [lia|]. eapply Forall_impl; [|exact HP]. intros Q HQ. eapply Forall_impl; [|exact HQ]. intros row [Hu _]. exact Hu. }
    destruct HM as [[LP RP] HM]. apply Forall_forall. change (forall row : list F, In row P -> sums_to_one (e + (2 * INR (length Ps) + 1) * ulp1)%R row). intros row Hrow. rewrite Forall_forall in U, RP. specialize (U row Hrow). specialize (RP row Hrow).
    apply In_nth_error in Hrow. destruct Hrow as [i Hi]. assert (Ir : i < r). { rewrite <- LP. apply (nth_error_lt _ _ _ Hi). }
    assert (V : exists vss, length vss = c /\ (forall j vs, nth_error vss j = Some vs -> cells Ps i j vs) /\
                 Forall2 (fun vs y => div (sum1 vs) (ofnat (length Ps)) = Ok y) vss row).
    { clear U N BK Bc HP. rewrite <- RP. assert (G : forall n, n <= c -> exists vss, length vss = n /\ (forall j vs, nth_error vss j = Some vs -> cells Ps i j vs) /\
                 Forall2 (fun vs y => div (sum1 vs) (ofnat (length Ps)) = Ok y) vss (firstn n row)).
      { induction n as [|n IH]; intro Hn; [exists []; split; [auto|split; [intros [|j] vs Q; discriminate|constructor]]|].
        destruct IH as (vss & L & C & D); [lia|]. destruct (HM i n Ir ltac:(lia)) as (vs & q & Cv & Cq & Dq). unfold cell in Cq. rewrite Hi in Cq.
        exists (vss ++ [vs]). split; [rewrite app_length, L; cbn; lia|]. split.
        - intros j ws Hj. destruct (Nat.lt_ge_cases j n) as [J|J].
          + rewrite nth_error_app1 in Hj by (rewrite L; lia). auto.
          + rewrite nth_error_app2 in Hj by (rewrite L; lia). rewrite L in Hj. destruct (j - n) as [|k] eqn:K; [|destruct k; discriminate]. injection Hj as <-. replace j with n by lia. auto.
        - assert (FS : firstn (S n) row = firstn n row ++ [q]).
          { clear - Cq. revert row Cq. induction n as [|n IH]; intros [|x row] Cq; cbn in *; try discriminate; [congruence|]. f_equal. apply (IH row Cq). }
          rewrite FS. apply Forall2_app; auto. }
      destruct (G c (le_n c)) as (vss & L & C & D). exists vss. rewrite firstn_all2 in D by lia. rewrite RP. auto. }
    destruct V as (vss & LV & CV & DV).
    apply (mean_row (length Ps) vss row e); auto.
    - destruct Ps; [congruence|cbn; lia].
    - change (Z.of_nat (@length F row) <= 2 ^ 52)%Z. rewrite RP. auto.
    - apply Forall_forall. intros vs Hv. apply In_nth_error in Hv. destruct Hv as [j Hj]. specialize (CV j vs Hj). split; [symmetry; apply (Forall2_len _ _ _ CV)|].
      clear - CV HP. unfold cells in CV. induction CV as [|Q v Ps vs Cv CV IH]; [constructor|]. inversion HP as [|? ? HQ HP']; subst. constructor; auto.
      unfold cell in Cv. destruct (nth_error Q i) as [w|] eqn:E; [|discriminate]. rewrite Forall_forall in HQ. destruct (HQ w (nth_error_In _ _ E)) as [Hu _].
      rewrite Forall_forall in Hu. pose proof (Hu v (nth_error_In _ _ Cv)) as Hv. apply nonneg_real; [apply Hv|apply in_unit_fin; auto].
    - clear - DV U. induction DV as [|vs y vss row D DV IH]; [constructor|]. inversion U; subst. constructor; auto. split; [|apply in_unit_fin; auto].
      destruct vs; exact D.
    - apply (swap_sums Ps i c e); auto. intros Q HQ. rewrite Forall_forall in HP, HR. specialize (HP Q HQ). destruct (HR Q HQ) as [LQ RQ].
      destruct (nth_error Q i) as [w|] eqn:E; [|apply nth_error_None in E; lia]. exists w. apply nth_error_In in E. rewrite Forall_forall in RQ, HP. split; auto. split; auto. apply HP; auto.
  Qed.

  (** Division of signed numbers by their l1 norm. *)
  Lemma Rabs_div : forall a b : R, (0 < b -> Rabs a / b = Rabs (a / b))%R.
  Proof. intros a b H. unfold Rdiv. rewrite Rabs_mult, (Rabs_right (/ b)); auto. apply Rle_ge, Rlt_le, Rinv_0_lt_compat; auto. Qed.
  Lemma l1_sums : forall row d : list F, row <> [] -> (Z.of_nat (length row) <= 2 ^ 52)%Z ->
    is_finite (psum (map absv row) : F) = true -> eqb (psum (map absv row)) zero = false ->
    divided_by (psum (map absv row)) row d -> Forall (fun y => leb (absv y) one = true) d ->
    sums_to_one ((INR (length row) + 2) * ulp1)%R (map (absv (a:=F)) d).
  Proof.
    intros row d N L Fi NZ D U. unfold divided_by in D. rewrite NZ in D.
    rewrite <- (map_length (absv (a:=F)) row) in *. 
    assert (AP : forall x : F, is_finite x = true -> leb zero (absv x) = true).
    { intros x Fx. change (f_leb (f_ofZE 0 0) (Babs x) = true). rewrite f_leb_x, b2x_zero, b2x_fin, B2R_Babs by (rewrite is_finite_Babs; auto). apply Rleb_le, Rabs_pos. }
    assert (FR : Forall (fun x : F => is_finite x = true) row).
    { destruct (fold_fin_inv (map (absv (a:=F)) row) _ Fi) as [_ Q]. rewrite Forall_map in Q. eapply Forall_impl; [|exact Q]. intros x Hx. change (is_finite (Babs x) = true) in Hx. rewrite is_finite_Babs in Hx. auto. }
    apply normalised_sum_R; auto.
    - apply Forall_map. eapply Forall_impl; [|exact FR]. exact AP.
    - cbn zeta. 
      assert (SP : (0 <= B2R (psum (map absv row) : F))%R).
      { pose proof (fold_err (map (absv (a:=F)) row) (zero : F) Fi ltac:(apply Rle_refl)) as Q.
        assert (PP : Forall (fun x : f64 => (0 <= B2R x)%R) (map (absv (a:=F)) row)).
        { apply Forall_map, Forall_forall. intros x _. change (0 <= B2R (Babs x))%R. rewrite B2R_Babs. apply Rabs_pos. }
        specialize (Q PP). eapply Rle_trans; [|apply Q]. apply Rmult_le_pos; [|apply pow_le; pose proof u_le; lra].
        change (B2R (zero : F)) with 0%R. rewrite Rplus_0_l. apply Rsum_nonneg, Forall_map; auto. }
      change (fold_left f_add (map (absv (a:=F)) row) (f_ofZE 0 0)) with (psum (map (absv (a:=F)) row) : F).
      clear N NZ L. revert SP D Fi. generalize (psum (map absv row) : F). intros s SP D Fs.
      induction D as [|x y row d E D IH]; [constructor|]. inversion FR; subst. inversion U; subst. cbn [map]. constructor; auto.
      assert (Fy : is_finite y = true).
      { destruct y as [|[]| |]; auto; exfalso; match goal with H : leb (absv _) one = true |- _ => vm_compute in H; discriminate H end. }
      destruct (div_fin x s y) as [NS Ey]; auto. split; auto. split; [|change (is_finite (Babs y) = true); rewrite is_finite_Babs; auto].
      change (B2R (Babs y) = rnd (B2R (Babs x) / B2R s)). rewrite !B2R_Babs, Ey, Rabs_div by lra. unfold rnd. symmetry. apply round_NE_abs. apply FLT_exp_valid. reflexivity.
    - destruct row; [congruence|discriminate].
  Qed.
End S.
