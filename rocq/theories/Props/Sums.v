(** The probabilities the estimators return, as doubles: each row is a
    probability distribution up to rounding, with an explicit bound. *)
From Coq Require Import String Reals Lra Lia ZArith Bool List.
From Flocq Require Import Core BinarySingleNaN.
From Verif Require Import Model.Py Model.Arith Model.F64 Model.XR Model.Utils Model.Base Model.Tree Model.Ensemble Model.Xgb Model.Linear Model.Preprocessing Model.FastText.
From Verif Require Import Spec.Matrix Spec.Ensembles Spec.Reals Spec.Rounding Spec.Libm Spec.Trees Spec.Xgb Spec.Linear Spec.Scaling Spec.FastText.
From Verif Require Import Proofs.Lib Proofs.Laws Proofs.Round Proofs.Unit Proofs.Arrays Proofs.Arrays2 Proofs.CRLibm Proofs.RealLib Proofs.Argmax Proofs.Ensemble Proofs.Tree Proofs.LinearProba Proofs.Scaling Proofs.FastText Proofs.SumErr Proofs.Sums.
From Verif Require Import Props.Arrays Props.Trees Props.Ensembles Props.Boosting Props.Xgb Props.Linear Props.Scaling Props.FastText.
Import ListNotations.
Local Open Scope nat_scope.

(** C06.  Softmax of [n] scores: a distribution up to (n + 2) ulps of 1, as long
    as no exponential overflows and they do not all vanish (missing: the scores
    of C06_overflow_refuted and C06_underflow_refuted). *)
Theorem C06_sum_float_partial : forall m, exp_nonneg m -> forall (l es : list (F64 m)), l <> [] -> (Z.of_nat (length l) <= 2 ^ 52)%Z ->
  Forall2 (fun x e => is_finite x = true /\ m_exp m x = Some e) l es ->
  is_finite (fold_left f_add es (zero : F64 m)) = true -> eqb (fold_left f_add es (zero : F64 m) : F64 m) zero = false ->
  exists p, sfmax l = Ok p /\ length p = length l /\ near_distribution ((INR (length l) + 2) * ulp1)%R p.
Proof.
  intros m HE l es N L H Fin NZ. destruct (C06_softmax_float_partial m HE l es H Fin NZ) as (p & E & Lp & U).
  exists p. split; auto. split; auto. apply (near_intro m); auto. apply (softmax_sums m HE l es); auto.
  apply (proj2 (f_finite_iff _)). exact Fin.
Qed.
Print Assumptions C06_sum_float_partial.

(** C11.  A decision tree: leaf counts non-negative, of finite non-zero sum. *)
Theorem C11_sum_float : forall (m : libm) (L : Type) (t : tree (F64 m) L) (s : dtree (F64 m)) (M : list (list (F64 m))) r c K,
  encodes t 0 s -> rect M r c -> 1 <= r -> features_below c s -> (Z.of_nat K <= 2 ^ 52)%Z ->
  all_leaves (fun v : list (F64 m) => length v = K /\ Forall (fun n => leb zero n = true) v /\
                       is_finite (fold_left f_add v (zero : F64 m)) = true /\
                       eqb (fold_left f_add v (zero : F64 m) : F64 m) zero = false) s ->
  exists P, tree_predict_proba t (ll M) = Ok P /\ rect P r K /\
    Forall (near_distribution ((INR K + 2) * ulp1)%R) P.
Proof.
  intros m L t s M r c K HE RM H1 HF HK HA.
  assert (HA' : all_leaves (fun v : list (F64 m) => Forall (fun n => leb zero n = true) v /\
                       is_finite (fold_left f_add v (zero : F64 m)) = true /\
                       eqb (fold_left f_add v (zero : F64 m) : F64 m) zero = false) s).
  { clear - HA. induction s; cbn in *; tauto. }
  destruct (C11_proba_unit m L t s M r c HE RM H1 HF HA') as (P & E & S & U). exists P. split; auto.
  assert (N : M <> []) by (destruct RM; destruct M; [simpl in *; lia|discriminate]).
  pose proof (proj1 (C11_proba (F64 m) L t s M HE N P) E) as D.
  assert (G : Forall (fun p => length p = K /\ near_distribution ((INR K + 2) * ulp1)%R p) P).
  { clear - D U HA HK. induction D as [|row p M P (v & Fv & Dv) D IH]; [constructor|]. inversion U as [|? ? Up U']; subst. constructor; auto.
    destruct (fall_leaf _ _ _ _ HA Fv) as (Lv & Pv & Fi & NZ). split; [rewrite <- Lv; symmetry; apply (Forall2_len _ _ _ Dv)|].
    apply (near_intro m); auto. rewrite <- Lv. apply (normalised_sums m); auto.
    - rewrite Lv. auto.
    - intros ->. discriminate NZ. }
  split.
  - split; [|eapply Forall_impl; [|exact G]; cbn; tauto]. destruct RM as [RM _]. rewrite <- RM. symmetry. apply (Forall2_len _ _ _ D).
  - eapply Forall_impl; [|exact G]. cbn. tauto.
Qed.
Print Assumptions C11_sum_float.
Example C11_sum_ex : forall m, exists P, tree_predict_proba (stump m) (ll [[zero]; [nanv]]) = Ok P /\ rect P 2 2 /\
    Forall (near_distribution ((INR 2 + 2) * ulp1)%R) P.
Proof.
  intro m. apply (C11_sum_float m nat (stump m) (stump_spec m) _ 2 1 2); [apply stump_encodes|repeat constructor|lia|repeat constructor|lia|].
  repeat constructor.
Qed.

(** C12.  An averaging ensemble of [n] members whose rows are distributions up
    to [e]. *)
Theorem C12_sum_float : forall (m : libm) (L : Type) (b : bagging (F64 m) L) X Ps r c e,
  b_feats b = None -> members_return b X Ps r c -> 1 <= r ->
  (Z.of_nat (length Ps) <= 2 ^ 52)%Z -> (Z.of_nat c <= 2 ^ 52)%Z -> (0 <= e <= 1)%R ->
  Forall (Forall (near_distribution e)) Ps ->
  exists P, bagging_predict_proba b X = Ok P /\ rect P r c /\
    Forall (near_distribution (e + (2 * INR (length Ps) + 1) * ulp1)%R) P.
Proof.
  intros m L b X Ps r c e HF HM H1 BK Bc He HP.
  destruct (C12_mean m L b X Ps r c HF HM H1) as (P & E & MP); [lia|]. exists P. split; auto. split; [apply MP|].
  destruct HM as [N HM].
  assert (HP' : Forall (Forall (fun row : list (F64 m) => Forall (in_unit m) row /\ sums_to_one e row)) Ps).
  { eapply Forall_impl; [|exact HP]. intros Q HQ. eapply Forall_impl; [|exact HQ]. intros row. apply (near_elim m). }
  assert (S : Forall (sums_to_one (e + (2 * INR (length Ps) + 1) * ulp1)%R) P).
  { apply (mean_sums m Ps P r c e); auto. clear - HM. induction HM as [|? ? ? ? [_ ?]]; constructor; auto. }
  assert (U : Forall (Forall (in_unit m)) P).
  { apply (C12_unit m Ps P r c); auto; [lia|]. eapply Forall_impl; [|exact HP']. intros Q HQ. eapply Forall_impl; [|exact HQ]. cbn. tauto. }
  rewrite Forall_forall in *. intros row Hr. apply (near_intro m); auto.
Qed.
Print Assumptions C12_sum_float.

(** A forest: the members are decision trees. *)
Theorem C12_forest_float : forall (m : libm) (L : Type) (b : bagging (F64 m) L) (ts : list (tree (F64 m) L)) (ss : list (dtree (F64 m))) (M : list (list (F64 m))) r c K,
  b_feats b = None -> b_members b = map (fun t => tree_predict_proba t) ts -> ts <> [] -> (Z.of_nat (length ts) <= 2 ^ 52)%Z ->
  rect M r c -> 1 <= r -> (Z.of_nat K <= 2 ^ 51)%Z ->
  Forall2 (fun t s => encodes t 0 s /\ features_below c s /\
    all_leaves (fun v : list (F64 m) => length v = K /\ Forall (fun n => leb zero n = true) v /\
                       is_finite (fold_left f_add v (zero : F64 m)) = true /\
                       eqb (fold_left f_add v (zero : F64 m) : F64 m) zero = false) s) ts ss ->
  exists P, bagging_predict_proba b (ll M) = Ok P /\ rect P r K /\
    Forall (near_distribution ((INR K + 2 * INR (length ts) + 3) * ulp1)%R) P.
Proof.
  intros m L b ts ss M r c K HF HM NT BT RM H1 BK HT.
  assert (X : exists Ps, length Ps = length ts /\ Forall2 (fun p P => p (ll M) = Ok P /\ rect P r K) (b_members b) Ps /\ Forall (Forall (near_distribution ((INR K + 2) * ulp1)%R)) Ps).
  { rewrite HM. clear - HT RM H1 BK. induction HT as [|t s ts ss (HE & HB & HA) HT (Ps & LP & F2 & N)]; [exists []; repeat constructor|].
    destruct (C11_sum_float m L t s M r c K HE RM H1 HB ltac:(lia) HA) as (P & E & R & D). exists (P :: Ps). cbn [length map]. split; [lia|]. split; constructor; auto. }
  destruct X as (Ps & LP & F2 & N).
  assert (He : (0 <= (INR K + 2) * ulp1 <= 1)%R).
  { pose proof (pos_INR K). pose proof u_pos. rewrite ulp1_u. split; [apply Rmult_le_pos; lra|].
    assert (INR K <= bpow radix2 51)%R by (rewrite INR_IZR_INZ; change (bpow radix2 51) with (IZR (2 ^ 51)); apply IZR_le; auto).
    apply Rle_trans with ((bpow radix2 51 + bpow radix2 1) * (2 * u))%R; [apply Rmult_le_compat_r; [lra|]; change (bpow radix2 1) with 2%R; lra|].
    unfold u. change 2%R with (bpow radix2 1). rewrite <- bpow_plus. rewrite Rmult_plus_distr_r, <- !bpow_plus. cbn [Z.add Z.opp Z.pos_sub Pos.pred_double Pos.add Pos.succ].
    apply Rle_trans with (bpow radix2 (-1) + bpow radix2 (-1))%R; [|cbn; lra].
    apply Rplus_le_compat; apply bpow_le; lia. }
  destruct (C12_sum_float m L b (ll M) Ps r K ((INR K + 2) * ulp1)%R) as (P & E & R & D); auto; try lia.
  { split; auto. destruct Ps; [destruct ts; [congruence|discriminate]|discriminate]. }
  exists P. split; auto. split; auto. rewrite LP in D.
  replace ((INR K + 2 * INR (length ts) + 3) * ulp1)%R with ((INR K + 2) * ulp1 + (2 * INR (length ts) + 1) * ulp1)%R by ring. exact D.
Qed.
Print Assumptions C12_forest_float.
Example C12_forest_ex : forall m, let b : bagging (F64 m) nat :=
    {| b_members := map (fun t => tree_predict_proba t) [stump m; stump m; stump m]; b_feats := None; b_classes := [3; 4] |} in
  exists P, bagging_predict_proba b (ll [[zero]; [nanv]]) = Ok P /\ rect P 2 2 /\ Forall (near_distribution ((INR 2 + 2 * INR 3 + 3) * ulp1)%R) P.
Proof.
  intros m b. apply (C12_forest_float m nat b [stump m; stump m; stump m] [stump_spec m; stump_spec m; stump_spec m] _ 2 1 2); auto; try lia; try discriminate.
  - repeat constructor.
  - assert (Q : encodes (stump m) 0 (stump_spec m)) by apply stump_encodes. repeat constructor; auto.
Qed.

(** C15.  Boosted trees with the logistic objective: two numbers that sum to 1
    up to half an ulp, whatever the leaf values (infinite sums included). *)
Theorem C15_binary_sum_float : forall (m : libm) (L : Type) (s : xgb_src (F64 m) L) df ne T (M : list (list (F64 m))) (V : nat -> list (F64 m) -> F64 m),
  exp_nonneg m ->
  xs_objective s = lit "binary:logistic" -> xs_booster s = lit "gbtree" -> xs_df s = Some df ->
  xs_nclasses s = 2%Z -> xs_nest s = Z.of_nat ne -> booster df ne 1 (fun e _ => T e) -> M <> [] ->
  (forall e row, e < ne -> In row M -> fall row (T e) = Some [V e row]) ->
  (forall row, In row M -> isnan (fold_left add (map (fun e => V e row) (seq 0 ne)) zero) = false) ->
  exists g P, xgb_convert s = Ok g /\ xgb_predict_proba g (ll M) = Ok P /\ rect P (length M) 2 /\
    Forall (near_distribution (ulp1 / 2)%R) P.
Proof.
  intros m L s df ne T M V HE HO HB HD HC HN HT NM HV NN.
  destruct (C15_binary (F64 m) L s df ne T M V HO HB HD HC HN HT NM HV) as (g & Eg & _ & EP).
  assert (X : exists P, mapM (fun row => p <- expit (fold_left add (map (fun e => V e row) (seq 0 ne)) zero) ;; Ok [sub one p; p]) M = Ok P /\
     Forall2 (fun row p => length p = 2 /\ near_distribution (ulp1 / 2)%R p) M P).
  { clear - NN HE. induction M as [|row M IH]; [exists []; repeat constructor|].
    destruct IH as (P & E & F2); [intros; apply NN; right; auto|].
    destruct (expit_unit m HE _ (NN row (or_introl eq_refl))) as (p & Ep & P0 & P1). cbn [mapM]. rewrite Ep. cbn [bind]. rewrite E. cbn [bind].
    eexists. split; [reflexivity|]. constructor; auto. split; auto.
    apply (near_intro m); [|apply (pair_sums m); split; auto]. pose proof (one_minus_unit m p P0 P1). repeat constructor; tauto. }
  destruct X as (P & E & F2). exists g, P. split; auto. split; [rewrite EP; exact E|]. split.
  - split; [symmetry; apply (Forall2_len _ _ _ F2)|]. clear - F2. induction F2 as [|? ? ? ? [? ?]]; constructor; auto.
  - clear - F2. induction F2 as [|? ? ? ? [? ?]]; constructor; auto.
Qed.
Print Assumptions C15_binary_sum_float.

Definition fstump_df {m} : list (df_row (F64 m)) :=
  [ @Build_df_row (F64 m) 0 (lit "f1") one (Some (lit "0-1")) (Some (lit "0-2")) one;
    @Build_df_row (F64 m) 0 (lit "Leaf") nanv None None one;
    @Build_df_row (F64 m) 0 (lit "Leaf") nanv None None zero ].
Definition fstump_tree {m} : dtree (F64 m) := Node (A:=F64 m) 1 one (Leaf (A:=F64 m) [one]) (Leaf (A:=F64 m) [zero]).
Lemma fstump_booster : forall m, booster (A:=F64 m) fstump_df 1 1 (fun _ _ => fstump_tree).
Proof.
  intros m e k He Hk. destruct e; [|lia]. destruct k; [|lia]. exists fstump_df. split; [repeat (apply rows_here; [reflexivity|]); apply rows_none|]. split; [|split].
  - split; [|split]; simpl.
    + constructor; [right; exists (lit "1"), 1; split; [reflexivity|apply num1]|]. repeat constructor.
    + constructor; [exists (lit "0"), (lit "1"), 1; split; [reflexivity|apply num1]|]. repeat constructor.
    + constructor; [exists (lit "0"), (lit "2"), 2; split; [reflexivity|apply num2]|]. repeat constructor.
  - eapply (dump_node _ 0 1 2 1 _ _ _ (lit "1") (lit "0") (lit "1") (lit "0") (lit "2")); simpl; auto; try apply num1; try apply num2.
    + apply (dump_leaf (A:=F64 m) _ 1 one nanv); reflexivity.
    + apply (dump_leaf (A:=F64 m) _ 2 zero nanv); reflexivity.
  - simpl. lia.
Qed.
Example C15_sum_ex : let s : xgb_src (F64 crlibm) nat :=
    {| xs_objective := lit "binary:logistic"; xs_booster := lit "gbtree"; xs_classes := [7; 8]; xs_nclasses := 2; xs_nest := 1; xs_df := Some fstump_df |} in
  exists g P, xgb_convert s = Ok g /\ xgb_predict_proba g (ll [[zero; zero]]) = Ok P /\ rect P 1 2 /\ Forall (near_distribution (ulp1 / 2)%R) P.
Proof.
  intro s. apply (C15_binary_sum_float crlibm nat s fstump_df 1 (fun _ => fstump_tree) [[zero; zero]] (fun _ _ => one)); auto; try discriminate.
  - apply cr_exp_nonneg.
  - apply (fstump_booster crlibm).
  - intros e row _ [<-|[]]. reflexivity.
Qed.

(** Several classes: softmax of the sums, so up to (nc + 2) ulps as long as no
    exponential overflows and they do not all vanish. *)
Theorem C15_multi_sum_float_partial : forall (m : libm) (L : Type) (s : xgb_src (F64 m) L) df ne nc T (M : list (list (F64 m))) (V : nat -> nat -> list (F64 m) -> F64 m) (E : list (F64 m) -> list (F64 m)),
  exp_nonneg m ->
  xs_objective s = lit "multi:softprob" -> xs_booster s = lit "gbtree" -> xs_df s = Some df ->
  xs_nclasses s = Z.of_nat nc -> xs_nest s = Z.of_nat ne -> nc <> 2 -> 1 <= nc -> (Z.of_nat nc <= 2 ^ 52)%Z -> booster df ne nc T -> M <> [] ->
  (forall e k row, e < ne -> k < nc -> In row M -> fall row (T e k) = Some [V e k row]) ->
  (forall row, In row M ->
     Forall2 (fun x e => is_finite x = true /\ m_exp m x = Some e) (map (fun k => fold_left (add (a:=F64 m)) (map (fun e => V e k row) (seq 0 ne)) zero) (seq 0 nc)) (E row) /\
     is_finite (fold_left f_add (E row) (zero : F64 m)) = true /\ eqb (fold_left f_add (E row) (zero : F64 m) : F64 m) zero = false) ->
  exists g P, xgb_convert s = Ok g /\ xgb_predict_proba g (ll M) = Ok P /\ rect P (length M) nc /\
    Forall (near_distribution ((INR nc + 2) * ulp1)%R) P.
Proof.
  intros m L s df ne nc T M V E HE HO HB HD HC HN N2 N1 Bn HT NM HV HX.
  destruct (C15_multi (F64 m) L s df ne nc T M V HO HB HD HC HN N2 HT NM HV) as (g & Eg & _ & EP).
  assert (X : exists P, mapM (fun row => sfmax (map (fun k => fold_left add (map (fun e => V e k row) (seq 0 ne)) zero) (seq 0 nc))) M = Ok P /\
     Forall2 (fun row p => length p = nc /\ near_distribution ((INR nc + 2) * ulp1)%R p) M P).
  { clear - HX HE N1 Bn. induction M as [|row M IH]; [exists []; repeat constructor|].
    destruct IH as (P & EP & F2); [intros; apply HX; right; auto|].
    destruct (HX row (or_introl eq_refl)) as (H1 & H2 & H3).
    destruct (C06_sum_float_partial m HE (map (fun k => fold_left (add (a:=F64 m)) (map (fun e => V e k row) (seq 0 ne)) zero) (seq 0 nc)) (E row)) as (p & Ep & Lp & Dp); auto.
    { destruct nc; [lia|discriminate]. } { rewrite map_length, seq_length; auto. }
    cbn [mapM]. rewrite Ep. cbn [bind]. rewrite EP. cbn [bind]. eexists. split; [reflexivity|]. rewrite map_length, seq_length in Lp, Dp. constructor; auto. }
  destruct X as (P & EX & F2). exists g, P. split; auto. split; [rewrite EP; exact EX|]. split.
  - split; [symmetry; apply (Forall2_len _ _ _ F2)|]. clear - F2. induction F2 as [|? ? ? ? [? ?]]; constructor; auto.
  - clear - F2. induction F2 as [|? ? ? ? [? ?]]; constructor; auto.
Qed.
Print Assumptions C15_multi_sum_float_partial.

(** C16.  Gradient boosting with the binomial deviance. *)
Theorem C16_binary_sum_float : forall (m : libm) (vs : list (F64 m)), exp_nonneg m ->
  vs <> [] -> Forall (fun v => isnan v = false) vs ->
  exists P, raw_to_proba LBinary (map (fun v => [v]) vs) = Ok P /\ rect P (length vs) 2 /\ Forall (near_distribution (ulp1 / 2)%R) P.
Proof.
  intros m vs HE N HV. destruct (C16_binary_float m vs HE N HV) as (ps & E & F2). eexists. split; [exact E|].
  split; [split; [rewrite map_length; symmetry; apply (Forall2_len _ _ _ F2)|apply Forall_map, Forall_forall; auto]|].
  apply Forall_map. clear - F2. induction F2 as [|v p vs ps (_ & P0 & P1 & Q0 & Q1) F2 IH]; constructor; auto.
  apply (near_intro m); [repeat constructor; auto|apply (pair_sums m); split; auto].
Qed.
Print Assumptions C16_binary_sum_float.
Example C16_sum_ex : exp_nonneg crlibm /\ Forall (fun v : F64 crlibm => isnan v = false) [(f1000 : F64 crlibm); (fm1000 : F64 crlibm); pinf].
Proof. split; [apply cr_exp_nonneg|]. destruct f1000_val as [F1 _]. destruct fm1000_val as [F2 _]. constructor; [destruct f1000; try discriminate; reflexivity|]. constructor; [destruct fm1000; try discriminate; reflexivity|]. constructor; [reflexivity|constructor]. Qed.

(** C20.  One-vs-rest, one score. *)
Theorem C20_ovr_binary_sum_float : forall (m : libm) (L : Type) (c : linear (F64 m) L) f X s, exp_nonneg m -> one_vs_rest c f ->
  decision_function c X = Ok (D1 s) -> Forall (fun x => isnan x = false) s ->
  exists P, f X = Ok P /\ rect P (length s) 2 /\ Forall (near_distribution (ulp1 / 2)%R) P.
Proof.
  intros m L c f X s HE H E N. destruct (C20_ovr_binary_float m L c f X s HE H E N) as (ps & EP & F2). eexists. split; [exact EP|].
  split; [split; [rewrite map_length; symmetry; apply (Forall2_len _ _ _ F2)|apply Forall_map, Forall_forall; auto]|].
  apply Forall_map. clear - F2. induction F2 as [|v p vs ps (_ & P0 & P1 & Q0 & Q1) F2 IH]; constructor; auto.
  apply (near_intro m); [repeat constructor; auto|apply (pair_sums m); split; auto].
Qed.
Print Assumptions C20_ovr_binary_sum_float.

(** One-vs-rest, several scores: a distribution up to rounding, or a row of NaN
    (exactly when the logistic values are all zero, see C20_saturated_refuted). *)
Theorem C20_ovr_multi_sum_float_partial : forall (m : libm) (L : Type) (c : linear (F64 m) L) f X S, exp_nonneg m -> one_vs_rest c f ->
  decision_function c X = Ok (D2 S) -> Forall (fun s => Forall (fun x => isnan x = false) s /\ (Z.of_nat (length s) <= 2 ^ 52)%Z) S ->
  exists P, f X = Ok P /\
    Forall2 (fun (s p : list (F64 m)) => exists e : list (F64 m), Forall2 (fun x q => expit x = Ok q) s e /\ length p = length s /\
       ((~ Forall (fun q => eqb q zero = true) e /\ near_distribution ((INR (length s) + 2) * ulp1)%R p) \/
        (Forall (fun q => eqb q zero = true) e /\ Forall (fun v => v = nanv) p))) S P.
Proof.
  intros m L c f X S HE H E N.
  destruct (C20_ovr_multi_float m L c f X S HE H E) as (P & EP & F2).
  { eapply Forall_impl; [|exact N]. cbn. intros s [H1 H2]. split; auto. lia. }
  exists P. split; auto. clear - F2 N HE. induction F2 as [|s p S P (e & Fe & Lp & D) F2 IH]; [constructor|]. inversion N as [|? ? [Ns Ls] N']; subst. constructor; auto.
  exists e. split; auto. split; auto.
  assert (Le : length e = length s) by (symmetry; apply (Forall2_len _ _ _ Fe)).
  assert (Pe : Forall (fun q : F64 m => leb zero q = true /\ leb q one = true) e).
  { clear - Fe Ns HE. induction Fe as [|x q s e E Fe IH]; [constructor|]. inversion Ns; subst. constructor; auto.
    destruct (expit_unit m HE x) as (q' & E' & U); auto. rewrite E' in E. injection E as ->. exact U. }
  assert (Z : eqb (psum e) zero = true <-> Forall (fun q => eqb q zero = true) e).
  { apply (psum_zero m); auto. eapply Forall_impl; [|exact Pe]. cbn. tauto. }
  destruct D as [[NZ D]|[NZ D]].
  - left. split; [intro Q; apply Z in Q; congruence|].
    assert (D1 : Forall2 (fun q v => div q (psum e) = Ok v) e p /\ Forall (in_unit m) p).
    { clear - D. revert D. generalize (psum e). intros t D. induction D as [|? ? ? ? (? & ? & ?)]; [repeat constructor|]. destruct IHD. split; constructor; auto. split; auto. }
    destruct D1 as [D1 U]. apply (near_intro m); auto. rewrite <- Le. apply (normalised_sums m); auto.
    + rewrite Le. auto.
    + intros ->. discriminate NZ.
    + eapply Forall_impl; [|exact Pe]. cbn. tauto.
    + apply (proj1 (f_finite_iff (psum e : F64 m))). apply (psum_units m e Pe). rewrite Le. lia.
  - right. split; auto. apply Z; auto.
Qed.
Print Assumptions C20_ovr_multi_sum_float_partial.

(** Multinomial (missing: scores whose exponentials overflow or all vanish). *)
Theorem C20_multinomial_sum_float_partial : forall (m : libm) (L : Type) (c : linear (F64 m) L) f X (S Es : list (list (F64 m))), exp_nonneg m -> multinomial c f ->
  decision_function c X = Ok (D2 S) \/ (exists s, decision_function c X = Ok (D1 s) /\ S = map (fun x => [opp x; x]) s) ->
  Forall2 (fun s (es : list (F64 m)) => s <> [] /\ (Z.of_nat (length s) <= 2 ^ 52)%Z /\
     Forall2 (fun x e => is_finite x = true /\ m_exp m x = Some e) s es /\ finite (psum es) /\ eqb (psum es) zero = false) S Es ->
  exists P, f X = Ok P /\
    Forall2 (fun s p => length p = length s /\ near_distribution ((INR (length s) + 2) * ulp1)%R p) S P.
Proof.
  intros m L c f X S Es HE H E HS.
  assert (Q : f X = mapM sfmax S).
  { rewrite (multi_route c f X H). destruct E as [->|(s & -> & ->)]; cbn [bind]; auto. symmetry. apply mapM_map. }
  rewrite Q. clear E Q H. induction HS as [|s es S Es (N & B & H1 & H2 & H3) HS (P & E & F)]; [exists []; auto|].
  destruct (sfmax_float m HE s es H1 H2 H3) as (p & Ep & Lp & Up). exists (p :: P). split; [cbn [mapM]; rewrite Ep; cbn [bind]; rewrite E; auto|].
  constructor; auto. split; auto. apply (near_intro m); auto. apply (softmax_sums m HE s es); auto.
Qed.
Print Assumptions C20_multinomial_sum_float_partial.

(** C30.  A row scaled to unit l1 norm: the absolute values sum to 1. *)
Theorem C30_l1_sum_float : forall (m : libm) (M : list (list (F64 m))), M <> [] ->
  Forall (fun row => finite (psum (map absv row)) /\ Forall (fun x => isnan x = false) row /\ (Z.of_nat (length row) <= 2 ^ 52)%Z) M ->
  exists D, normalize_pure (ll M) (lit "l1") 1 = Ok (ll D) /\
    Forall2 (fun row d => eqb (psum (map absv row)) zero = false -> near_distribution ((INR (length row) + 2) * ulp1)%R (map (absv (a:=F64 m)) d)) M D.
Proof.
  intros m M NM H. destruct (C30_l1_partial m M NM) as (D & E & IU).
  { eapply Forall_impl; [|exact H]. cbn. tauto. }
  exists D. split; auto. apply (C30_l1 m M NM) in E. destruct E as (D' & ED & F2).
  assert (D' = D). { clear - ED. unfold ll in ED. injection ED as ED. revert D' ED. induction D; intros [|d' D'] ED; try discriminate; auto. injection ED as -> ED. f_equal. auto. }
  subst D'. clear - H IU F2. induction F2 as [|row d M D Dv F2 IH]; [constructor|]. inversion IU as [|? ? ? ? [I1 _] IU']; subst. inversion H as [|? ? (Fi & NN & B) H']; subst.
  constructor; auto. intro NZ.
  assert (A1 : Forall (fun y : F64 m => leb (absv y) one = true) d) by (clear - I1; induction I1 as [|? ? ? ? [_ ?]]; constructor; auto).
  apply (near_intro m).
  - apply Forall_map. rewrite Forall_forall in *. intros y Hy. split; [|apply A1; auto]. apply f_abs_ge0.
    specialize (A1 y Hy). destruct y; auto. 
  - apply (l1_sums m); auto.
    + intros ->. discriminate NZ.
    + apply (proj1 (f_finite_iff (psum (map absv row) : F64 m))). exact Fi.
Qed.
Print Assumptions C30_l1_sum_float.

Example C30_sum_ex : forall m : libm, Forall (fun row : list (F64 m) => (finite (psum (map absv row)) /\ Forall (fun x => isnan x = false) row /\ (Z.of_nat (length row) <= 2 ^ 52)%Z) /\
  eqb (psum (map absv row)) zero = false) [[ofZ 3; ofZ (-4)]; [ofZ 0; ofZ 7]].
Proof.
  intro m. constructor; [|constructor; [|constructor]]; (split; [split; [vm_compute; reflexivity|split; [|cbn; lia]]|vm_compute; reflexivity]);
  (constructor; [reflexivity|]; constructor; [reflexivity|]; constructor).
Qed.

(** C58.  The fastText softmax: finite scores are enough. *)
Theorem C58_sum_float : forall m : libm, exp_le1 m -> exp_at_0 m -> forall s : list (F64 m), s <> [] -> Forall (fun x => is_finite x = true) s ->
  (Z.of_nat (length s) <= 2 ^ 52)%Z ->
  exists p, ft_sfmax s = Ok p /\ length p = length s /\ near_distribution ((INR (length s) + 2) * ulp1)%R p.
Proof.
  intros m HL H0 s N Fs B. destruct (C58_stable m HL H0 s N Fs) as (p & E & (mx & es & Im & Mx & Fe & D) & Lp & U); [lia|].
  exists p. split; auto. split; auto. apply (near_intro m); auto.
  assert (Le : length es = length s) by (symmetry; apply (Forall2_len _ _ _ Fe)).
  assert (UE : Forall (fun e : F64 m => leb zero e = true /\ leb e one = true) es).
  { rewrite Forall_forall in Fs. pose proof (Fs mx Im) as Fm. clear - Fe Fs Fm Mx HL. induction Fe as [|x e s es E Fe IH]; [constructor|]. inversion Mx; subst.
    constructor; [|apply IH; auto; intros; apply Fs; right; auto].
    destruct (shifted_exp m HL x mx) as (e' & E' & Q); auto; [apply Fs; left; auto|]. rewrite E' in E. injection E as <-. exact Q. }
  rewrite <- Le. apply (normalised_sums m); auto.
  - rewrite Le. auto.
  - destruct es; [destruct s; [congruence|discriminate]|discriminate].
  - eapply Forall_impl; [|exact UE]. cbn. tauto.
  - apply (proj1 (f_finite_iff (psum es : F64 m))). apply (psum_units m es UE). rewrite Le. lia.
Qed.
Print Assumptions C58_sum_float.
