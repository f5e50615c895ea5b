(** C11, C12 on doubles: how far the probabilities of trees and averaging
    ensembles are from the exact shares, and when the label is the exact one. *)
From Coq Require Import Reals Lia Lra List.
From Flocq Require Import Core BinarySingleNaN.
From Verif Require Import Model.Py Model.Arith Model.F64 Model.XR Model.Utils Model.Base Model.Tree Model.Ensemble.
From Verif Require Import Spec.Matrix Spec.Ensembles Spec.Reals Spec.Rounding Spec.Trees Spec.Shares.
From Verif Require Import Proofs.Lib Proofs.Laws Proofs.Round Proofs.Unit Proofs.Arrays Proofs.RealLib Proofs.Argmax Proofs.Ensemble Proofs.Tree Proofs.SumErr Proofs.Sums Proofs.DotErr Proofs.MeanErr.
From Verif Require Import Props.Trees Props.Ensembles Props.Sums Props.Accuracy.
Import ListNotations.
Local Open Scope nat_scope.

Lemma with_right : forall {X Y} (R : X -> Y -> Prop) (P : Y -> Prop) l p, Forall2 R l p -> Forall P p -> Forall2 (fun x y => R x y /\ P y) l p.
Proof. intros X Y R P l p H. induction H; intro F; inversion F; subst; constructor; auto. Qed.

(** C11.  A decision tree answers the shares of the leaf up to a relative error
    of (K+1) ulps. *)
Theorem C11_accuracy_float : forall (m : libm) (L : Type) (t : tree (F64 m) L) (s : dtree (F64 m)) (M : list (list (F64 m))) r c K,
  encodes t 0 s -> rect M r c -> 1 <= r -> features_below c s -> (Z.of_nat K <= 2 ^ 52)%Z -> all_leaves (counts_ok m K) s ->
  exists P, tree_predict_proba t (ll M) = Ok P /\ rect P r K /\
    Forall2 (fun row p => exists v, fall row s = Some v /\ Forall (fun x => (0 <= x <= 1)%R) (shares v) /\
                          accurate ((INR K + 1) * ulp1) p (shares v)) M P.
Proof.
  intros m L t s M r c K HE RM H1 HF HK HA. destruct (C11_sum_float m L t s M r c K HE RM H1 HF HK HA) as (P & E & S & U). exists P. split; auto. split; auto.
  assert (N : M <> []) by (destruct RM; destruct M; [simpl in *; lia|discriminate]).
  pose proof (proj1 (C11_proba (F64 m) L t s M HE N P) E) as D. clear E S N RM H1.
  induction D as [|row p M P (v & Fv & Dv) D IH]; [constructor|]. inversion U as [|? ? Up U']; subst. constructor; auto.
  destruct (fall_leaf _ _ _ _ HA Fv) as (Lv & Pv & Fi & NZ). exists v. split; auto.
  assert (G : Forall2 (fun e q => f_div e (fold_left f_add v (f_ofZE 0 0)) = Ok q /\ is_finite q = true) v p).
  { destruct Up as [Up _]. apply with_right; [exact Dv|]. eapply Forall_impl; [|exact Up]. cbn. tauto. }
  assert (HL : (Z.of_nat (length v) <= 2 ^ 52)%Z) by (rewrite Lv; exact HK).
  assert (NV : v <> []) by (intros ->; discriminate NZ).
  destruct (shares_err v p HL NV Pv Fi G) as [A B]. split; [exact B|]. rewrite <- Lv. exact A.
Qed.
Print Assumptions C11_accuracy_float.

(** C12.  An averaging ensemble whose members' cells are within [e] of the
    numbers [x k i j] answers their means up to [e] and (n+1) ulps. *)
Theorem C12_accuracy_float : forall (m : libm) (L : Type) (b : bagging (F64 m) L) X Ps r c e (x : nat -> nat -> nat -> R),
  b_feats b = None -> members_return b X Ps r c -> 1 <= r -> (Z.of_nat (length Ps) <= 2 ^ 52)%Z ->
  (forall k P i j v, nth_error Ps k = Some P -> cell P i j = Some v ->
     is_finite v = true /\ (0 <= real v <= 1)%R /\ (Rabs (real v - x k i j) <= e)%R) ->
  exists P, bagging_predict_proba b X = Ok P /\ rect P r c /\
    forall i j, i < r -> j < c -> exists q, cell P i j = Some q /\ is_finite q = true /\ (0 <= real q <= 1)%R /\
      (Rabs (real q - Rmean (map (fun k => x k i j) (seq 0 (length Ps)))) <= e + (INR (length Ps) + 1) * ulp1)%R.
Proof.
  intros m L b X Ps r c e x HF HM H1 BK HX.
  destruct (C12_mean m L b X Ps r c HF HM H1) as (P & E & MP); [lia|]. exists P. split; auto. split; [apply MP|].
  destruct HM as [N HM].
  assert (RP : Forall (fun Q : list (list (F64 m)) => rect Q r c) Ps) by (clear - HM; induction HM as [|? ? ? ? [_ ?]]; constructor; auto).
  assert (UP : Forall (Forall (Forall (fun x => leb (zero : F64 m) x = true /\ leb x (one : F64 m) = true))) Ps).
  { apply Forall_forall. intros Q HQ. apply Forall_forall. intros row Hr. apply Forall_forall. intros v Hv.
    apply In_nth_error in HQ, Hr, Hv. destruct HQ as [k HQ], Hr as [i Hr], Hv as [j Hv].
    apply (in_unit_iff m). destruct (HX k Q i j v HQ) as (A & B & _); auto. unfold cell. rewrite Hr. auto. }
  pose proof (C12_unit m Ps P r c N ltac:(lia) MP UP) as U.
  intros i j Hi Hj. destruct MP as [RPP MP]. destruct (MP i j Hi Hj) as (vs & q & Cv & Cq & Dq). exists q. split; auto.
  assert (Uq : is_finite q = true /\ (0 <= real q <= 1)%R).
  { apply (in_unit_iff m). unfold cell in Cq. destruct (nth_error P i) as [row|] eqn:Er; [|discriminate]. rewrite Forall_forall in U. specialize (U row (nth_error_In _ _ Er)).
    rewrite Forall_forall in U. apply U. eapply nth_error_In; eauto. }
  destruct Uq as [Fq Uq]. split; auto. split; auto.
  assert (LV : length Ps = length vs) by apply (Forall2_len _ _ _ Cv).
  assert (HV : Forall (fun y : f64 => (0 <= B2R y <= 1)%R) vs /\ Forall2 (fun (v : f64) y => (Rabs (real v - y) <= e)%R) vs (map (fun k => x k i j) (seq 0 (length Ps)))).
  { apply Forall2_nth_error in Cv. destruct Cv as [_ Cv]. split.
    - apply Forall_forall. intros y Hy. apply In_nth_error in Hy. destruct Hy as [k Hk].
      destruct (nth_error_len _ _ _ _ LV Hk) as [Q HQ]. destruct (HX k Q i j y HQ (Cv k Q y HQ Hk)) as (_ & B & _). exact B.
    - apply Forall2_map_r. apply Forall2_nth_error. split; [rewrite seq_length; auto|].
      intros k v k' Hk Hk'. rewrite nth_error_seq in Hk'. destruct (k <? length Ps); [|discriminate]. injection Hk' as <-.
      destruct (nth_error_len _ _ _ _ LV Hk) as [Q HQ]. destruct (HX k Q i j v HQ (Cv k Q v HQ Hk)) as (_ & _ & B). exact B. }
  destruct HV as [HV HE]. destruct vs as [|v t]; [destruct Ps; [congruence|discriminate]|].
  apply (mean_cell (length Ps) v t q _ e); auto.
Qed.
Print Assumptions C12_accuracy_float.

Lemma accurate_within : forall K p q, (Z.of_nat K <= 2 ^ 52)%Z -> accurate ((INR K + 1) * ulp1) p q -> Forall (fun x => (0 <= x <= 1)%R) q -> within ((INR K + 2) * ulp1) p q.
Proof.
  intros K p q HK A H. induction A as [|v x p q [F B] A IH]; [constructor|]. inversion H; subst. constructor; [|apply IH; auto]. split; auto.
  pose proof (pos_INR K). pose proof u_pos. assert (tiny <= ulp1)%R by (apply bpow_le; lia). assert (0 < ulp1)%R by apply bpow_gt_0.
  assert ((INR K + 1) * ulp1 * x <= (INR K + 1) * ulp1)%R; [|lra]. rewrite <- (Rmult_1_r ((INR K + 1) * ulp1)) at 2. apply Rmult_le_compat_l; [apply Rmult_le_pos; lra|lra].
Qed.

(** A forest of decision trees: within (K + n + 3) ulps of the mean share. *)
Definition forest_of (m : libm) {L} (b : bagging (F64 m) L) (ts : list (tree (F64 m) L)) (ss : list (dtree (F64 m))) (c K : nat) : Prop :=
  b_feats b = None /\ b_members b = map (fun t => tree_predict_proba t) ts /\ ts <> [] /\
  Forall2 (fun t s => encodes t 0 s /\ features_below c s /\ all_leaves (counts_ok m K) s) ts ss.
Theorem C12_forest_accuracy_float : forall (m : libm) (L : Type) (b : bagging (F64 m) L) ts ss (M : list (list (F64 m))) r c K,
  forest_of m b ts ss c K -> (Z.of_nat (length ts) <= 2 ^ 52)%Z -> rect M r c -> 1 <= r -> (Z.of_nat K <= 2 ^ 51)%Z ->
  exists P, bagging_predict_proba b (ll M) = Ok P /\ rect P r K /\
    Forall2 (fun row p => within ((INR K + INR (length ts) + 3) * ulp1) p (map (forest_share m ss row) (seq 0 K))) M P.
Proof.
  intros m L b ts ss M r c K (HF & HM & NT & HT) BT RM H1 BK.
  assert (X : exists Ps, Forall2 (fun p P => p (ll M) = Ok P /\ rect P r K) (b_members b) Ps /\
     Forall2 (fun (s : dtree (F64 m)) (P : list (list (F64 m))) => Forall2 (fun (row p : list (F64 m)) => exists v : list (F64 m), fall row s = Some v /\ length v = K /\ (Forall (fun x => (0 <= x <= 1)%R) (map real p)) /\ within ((INR K + 2) * ulp1) p (shares v)) M P) ss Ps).
  { rewrite HM. clear - HT RM H1 BK. induction HT as [|t s ts ss (HE & HB & HA) HT (Ps & F2 & N)]; [exists []; repeat constructor|].
    destruct (C11_accuracy_float m L t s M r c K HE RM H1 HB ltac:(lia) HA) as (P & E & R & D).
    destruct (C11_sum_float m L t s M r c K HE RM H1 HB ltac:(lia) HA) as (P' & E' & _ & U). rewrite E in E'. injection E' as <-.
    exists (P :: Ps). cbn [map]. split; constructor; auto. clear - D U BK HA. induction D as [|row p M P (v & Fv & Bv & A) D IH]; inversion U as [|? ? [Up _] U']; subst; constructor; auto.
    exists v. split; auto. split; [apply (fall_leaf _ _ _ _ HA Fv)|]. split; [apply Forall_map; eapply Forall_impl; [|exact Up]; cbn; tauto|]. apply accurate_within; auto. lia. }
  destruct X as (Ps & F2 & D).
  assert (LP : length Ps = length ts) by (rewrite <- (Forall2_len _ _ _ F2), HM, map_length; auto).
  assert (NP : Ps <> []) by (destruct Ps; [destruct ts; [congruence|discriminate]|discriminate]).
  pose proof (Forall2_len _ _ _ D) as LS.
  set (x := fun k i j => match nth_error ss k, nth_error M i with Some s, Some row => leaf_share m row j s | _, _ => 0%R end).
  destruct (C12_accuracy_float m L b (ll M) Ps r K ((INR K + 2) * ulp1)%R x) as (P & E & R & C); auto; try lia.
  { split; auto. }
  { intros k P i j v HP Hc. unfold cell in Hc. destruct (nth_error P i) as [p|] eqn:Ep; [|discriminate].
    apply Forall2_nth_error in D. destruct D as [_ D]. destruct (nth_error_len _ _ _ _ LS HP) as [s Hs]. specialize (D k s P Hs HP).
    pose proof (Forall2_len _ _ _ D) as LM. apply Forall2_nth_error in D. destruct D as [_ D]. destruct (nth_error_len _ _ _ _ LM Ep) as [row Hrow].
    destruct (D i row p Hrow Ep) as (w & Fw & Lw & Up & W). unfold x. rewrite Hs, Hrow. unfold leaf_share. rewrite Fw.
    pose proof (Forall2_len _ _ _ W) as Lp. apply Forall2_nth_error in W. destruct W as [_ W]. destruct (nth_error_len _ _ _ _ (eq_sym Lp) Hc) as [y Hy].
    destruct (W j v y Hc Hy) as [Fv B]. split; auto. split; [|rewrite (nth_error_nth _ _ 0%R Hy); exact B].
    rewrite Forall_forall in Up. apply Up. apply in_map. eapply nth_error_In; eauto. }
  exists P. split; auto. split; auto. apply Forall2_nth_error. destruct RM as [RM _]. destruct R as [RP RC]. split; [transitivity r; [exact RM|symmetry; exact RP]|].
  intros i row p Hrow Hp. assert (Ir : i < r) by (rewrite <- RM; apply (nth_error_lt _ _ _ Hrow)).
  rewrite Forall_forall in RC. pose proof (RC p (nth_error_In _ _ Hp)) as Lp. unfold within. apply Forall2_map_r. apply Forall2_nth_error. split; [rewrite seq_length; auto|].
  intros j v j' Hv Hj. rewrite nth_error_seq in Hj. destruct (Nat.ltb_spec j K); [|discriminate]. injection Hj as <-. cbn [Nat.add].
  destruct (C i j Ir ltac:(auto)) as (q & Cq & Fq & _ & B). assert (Cv : Some q = Some v).
  { transitivity (cell P i j); [symmetry; exact Cq|]. unfold cell. transitivity (nth_error p j); [|exact Hv].
    exact (f_equal (fun o : option (list (F64 m)) => match o with Some row => nth_error row j | None => None end) Hp). }
  injection Cv as ->. split; auto.
  assert (Q : map (fun k => x k i j) (seq 0 (length Ps)) = map (leaf_share m row j) ss).
  { rewrite <- LS. unfold x. rewrite Hrow. clear. induction ss as [|s ss IH]; auto. cbn [length seq map nth_error]. f_equal. rewrite <- seq_shift, map_map. exact IH. }
  rewrite Q, LP in B. unfold forest_share. replace ((INR K + INR (length ts) + 3) * ulp1)%R with ((INR K + 2) * ulp1 + (INR (length ts) + 1) * ulp1)%R by ring. exact B.
Qed.
Print Assumptions C12_forest_accuracy_float.

(** The label: when the exact mean shares separate a class from the others by
    more than twice that bound, it is the predicted one. *)
Theorem C12_forest_margin : forall (m : libm) (L : Type) (b : bagging (F64 m) L) ts ss (M : list (list (F64 m))) r c K,
  forest_of m b ts ss c K -> (Z.of_nat (length ts) <= 2 ^ 52)%Z -> rect M r c -> 1 <= r -> 1 <= K -> (Z.of_nat K <= 2 ^ 51)%Z -> length (b_classes b) = K ->
  exists out, bagging_predict b (ll M) = Ok out /\
    Forall2 (fun row y => forall k, k < K ->
      (forall j, j < K -> j <> k -> (forest_share m ss row j + 2 * ((INR K + INR (length ts) + 3) * ulp1) < forest_share m ss row k)%R) ->
      nth_error (b_classes b) k = Some y) M out.
Proof.
  intros m L b ts ss M r c K HF BT RM H1 K1 BK LC.
  destruct (C12_forest_accuracy_float m L b ts ss M r c K HF BT RM H1 BK) as (P & E & R & A). set (e := ((INR K + INR (length ts) + 3) * ulp1)%R) in *.
  assert (X : exists out, Forall2 (fun p y => exists i, best p i /\ nth_error (b_classes b) i = Some y) P out).
  { destruct R as [_ RC]. clear - RC K1 LC. induction RC as [|p P Lp RC (out & IH)]; [exists []; constructor|].
    destruct (argmax_total (F64_ord m) p) as (i & Hi); [destruct p; [simpl in *; lia|discriminate]|]. apply (argmax_iff (F64_ord m)) in Hi.
    destruct (nth_error (b_classes b) i) as [y|] eqn:Ey; [exists (y :: out); constructor; eauto|]. exfalso. apply nth_error_None in Ey. pose proof (best_lt _ _ Hi). lia. }
  destruct X as [out HO]. exists out. split; [apply (C12_predict m L); eauto|].
  clear E RM. destruct R as [_ RC]. revert out HO RC. induction A as [|row p M P A AA IH]; intros out HO RC; inversion HO as [|? y ? out' (i & Bi & Yi) HO']; subst; constructor; [|apply IH; auto; inversion RC; auto].
  intros k Hk Mg. destruct (Nat.eq_dec i k) as [->|NE]; auto. exfalso.
  pose proof (Forall2_len _ _ _ A) as LA. rewrite map_length, seq_length in LA. unfold within in A. apply Forall2_map_r in A. apply Forall2_nth_error in A. destruct A as [_ A].
  assert (Ik : i < length (b_classes b)) by (apply nth_error_Some; congruence).
  assert (G : forall j, j < length (b_classes b) -> exists v, nth_error p j = Some v /\ is_finite v = true /\ (Rabs (real v - forest_share m ss row j) <= e)%R).
  { intros j Hj. destruct (nth_error p j) as [v|] eqn:Ev; [|apply nth_error_None in Ev; exfalso; exact (Nat.lt_irrefl _ (Nat.lt_le_trans _ _ _ Hj (eq_ind _ (fun n => n <= j) Ev _ LA)))]. exists v. split; auto. apply (A j v j Ev). rewrite nth_error_seq. destruct (Nat.ltb_spec j (length (b_classes b))); [auto|lia]. }
  destruct (G i Ik) as (vi & Ei & Fi & Bdi). destruct (G k Hk) as (vk & Ek & Fk & Bdk). specialize (Mg i Ik NE). apply Rabs_le_inv in Bdi, Bdk.
  destruct (fin_lt vi vk Fi Fk ltac:(lra)) as [Q _]. 
  assert (HB : exists v : F64 m, nth_error p i = Some v /\ (isnan v = true \/ forall j w, nth_error p j = Some w -> ltb v w = false)).
  { destruct Bi as [(v & t & -> & Nv & ->)|(h & t & v & _ & _ & Hv & _ & B & _)]; exists v; auto. }
  destruct HB as (v & Hv & B1). assert (V : Some v = Some vi) by (transitivity (nth_error p i); [symmetry; exact Hv|exact Ei]). injection V as ->.
  destruct B1 as [B1|B1]; [destruct vi; discriminate|]. specialize (B1 k vk Ek). change (f_ltb vi vk = false) in B1. congruence.
Qed.
Print Assumptions C12_forest_margin.

(** Three trees that agree: the hypotheses hold, and a row that falls in a leaf
    with counts 2 and 0 has a clear winner, whose label is predicted. *)
Example C12_means_ex : forall m, let b : bagging (F64 m) nat :=
    {| b_members := map (fun t => tree_predict_proba t) [stump m; stump m; stump m]; b_feats := None; b_classes := [3; 4] |} in
  forest_of m b [stump m; stump m; stump m] [stump_spec m; stump_spec m; stump_spec m] 1 2.
Proof.
  intros m b. split; [reflexivity|]. split; [reflexivity|]. split; [discriminate|].
  assert (Q : encodes (stump m) 0 (stump_spec m) /\ features_below 1 (stump_spec m) /\ all_leaves (counts_ok m 2) (stump_spec m)).
  { split; [apply stump_encodes|]. split; [repeat constructor|]. repeat constructor. }
  repeat (constructor; [exact Q|]). constructor.
Qed.
Example C12_margin_ex : forall m, let ss := [stump_spec m; stump_spec m; stump_spec m] in
  let b : bagging (F64 m) nat := {| b_members := map (fun t => tree_predict_proba t) [stump m; stump m; stump m]; b_feats := None; b_classes := [3; 4] |} in
  forest_share m ss [zero] 0 = 1%R /\ forest_share m ss [zero] 1 = 0%R /\ bagging_predict b (ll [[zero]]) = Ok [3].
Proof.
  intros m ss b.
  assert (F : fall [zero : F64 m] (stump_spec m) = Some [ofZ 2; zero]) by reflexivity.
  assert (T : real (ofZ 2 : F64 m) = 2%R) by apply (real_ofZ 2 ltac:(lia)). assert (Z0 : real (zero : F64 m) = 0%R) by reflexivity.
  assert (S0 : forest_share m ss [zero] 0 = 1%R).
  { unfold forest_share, ss, leaf_share. cbn [map]. rewrite F. unfold shares. cbn [reals map nth Rsum]. unfold reals. cbn [map Rsum nth]. rewrite T, Z0. unfold Rmean. cbn. field. }
  assert (S1 : forest_share m ss [zero] 1 = 0%R).
  { unfold forest_share, ss, leaf_share. cbn [map]. rewrite F. unfold shares. cbn [reals map nth Rsum]. unfold reals. cbn [map Rsum nth]. rewrite T, Z0. unfold Rmean. cbn. field. }
  split; [exact S0|]. split; [exact S1|].
  destruct (C12_forest_margin m nat b [stump m; stump m; stump m] ss [[zero]] 1 1 2 (C12_means_ex m) ltac:(cbn; lia) ltac:(repeat constructor) ltac:(lia) ltac:(lia) ltac:(lia) eq_refl) as (out & E & D).
  rewrite E. inversion D as [|? y ? o H D']; subst. inversion D' as [E0|]; subst.
  assert (X : nth_error (b_classes b) 0 = Some y); [|injection X as <-; reflexivity]. apply (H 0); [lia|]. intros j Hj Nj. assert (j = 1) by lia. subst j.
  apply Rle_lt_trans with (0 + 2 * ((INR 2 + INR 3 + 3) * ulp1))%R; [right; f_equal; exact S1|]. apply Rlt_le_trans with 1%R; [|right; symmetry; exact S0].
  pose proof ulp1_small. cbn [INR]. lra.
Qed.
