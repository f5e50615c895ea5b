(** C18-C23: linear classifiers (pure_sklearn/linear_model, svm). *)
From Coq Require Import String Reals Lia Lra.
From Flocq Require Import Core BinarySingleNaN.
From Verif Require Import Model.Py Model.Arith Model.F64 Model.XR Model.Utils Model.Base Model.Linear.
From Verif Require Import Spec.Matrix Spec.Ensembles Spec.Reals Spec.Libm Spec.Linear.
From Verif Require Import Proofs.Lib Proofs.Laws Proofs.Round Proofs.Unit Proofs.Arrays Proofs.Arrays2 Proofs.CRLibm Proofs.RealLib
  Proofs.Argmax Proofs.Ensemble Proofs.Boosting Proofs.Linear Proofs.LinearProba.
Local Open Scope nat_scope.

(** C18.  On a matrix of the right width, decision_function returns the matrix of
    scores row . coef[k] + intercept[k] (flattened when there is one k). *)
Theorem C18_dense : forall (A : arith) (L : Type) (c : linear A L) d K b (M : list (list A)) r,
  fitted_linear c d K b -> rect M r d -> 1 <= r ->
  exists S s, decision_function c (ll M) = Ok s /\ scores_are K S s /\ Forall2 (affine (l_coef c) b) M S.
Proof.
  intros A L c d K b M r F [LM RM] H1. destruct M as [|row0 rest] eqn:EM; [simpl in LM; lia|]. inversion RM; subst.
  destruct (dec_rows c (length row0) K b (row0 :: rest) row0 rest F eq_refl eq_refl) as (s & E & Hs). eexists _, s. split; [exact E|]. split; [exact Hs|].
  apply Forall2_map_r. clear - F. destruct F as (RC & _ & _ & Lb). generalize (row0 :: rest). intro M.
  induction M; constructor; auto. apply affine_row_ok. rewrite Lb. destruct RC as [-> _]. auto.
Qed.
Print Assumptions C18_dense.

(** The same in exact arithmetic: the dot product of real vectors plus a real. *)
Theorem C18_exact : forall (L : Type) (c : linear XR L) d K (W : list (list R)) (b : list R) (M : list (list R)) r,
  l_coef c = finss W -> l_intercept c = Some (fins b) -> rect W K d -> length b = K -> 1 <= K -> rect M r d -> 1 <= r ->
  exists s, decision_function c (ll (finss M)) = Ok s /\
    scores_are K (finss (map (fun row => zip_with Rplus (map (Rdot row) W) b) M)) s.
Proof.
  intros L c d K W b M r HC HI RW Lb HK [LM RM] H1.
  assert (F : fitted_linear c d K (fins b)).
  { split; [rewrite HC; apply rect_finss; auto|]. split; auto. split; auto. rewrite fins_length. auto. }
  destruct M as [|row0 rest] eqn:EM; [simpl in LM; lia|]. inversion RM; subst d.
  destruct (dec_rows c (length row0) K (fins b) (finss (row0 :: rest)) (fins row0) (finss rest) F eq_refl (fins_length _)) as (s & E & Hs).
  exists s. split; [exact E|]. replace (finss (map (fun row => zip_with Rplus (map (Rdot row) W) b) (row0 :: rest))) with (map (affine_row (l_coef c) (fins b)) (finss (row0 :: rest))); auto.
  rewrite HC. unfold finss. rewrite !map_map. apply map_ext. intro row. unfold affine_row. rewrite map_map.
  rewrite (map_ext (fun x => dotp (fins row) (fins x)) (fun x => XFin (Rdot row x) : XR)) by (intro; apply dotp_fins).
  clear. revert b. induction W as [|w W IH]; intros [|y b]; auto. cbn [map zip_with fins]. f_equal. apply IH.
Qed.
Print Assumptions C18_exact.

(** A matrix of the wrong width is rejected. *)
Theorem C18_width : forall (A : arith) (L : Type) (c : linear A L) d d' K b (M : list (list A)) r,
  fitted_linear c d K b -> rect M r d' -> 1 <= r -> d <> d' -> decision_function c (ll M) = Err ValueError.
Proof.
  intros A L c d d' K b M r (RC & HK & HI & Lb) RM Hr N. unfold decision_function.
  assert (CA : check_array (ll M) HAllow = Ok (ll M)) by (destruct M; [destruct RM; simpl in *; lia|reflexivity]). rewrite CA. cbn [bind].
  unfold shape1 at 1 2. rewrite (shape_ll' _ _ _ RC HK). cbn [bind]. rewrite (shape_ll' _ _ _ RM Hr). cbn [bind].
  destruct (Z.eqb_spec (Z.of_nat d') (Z.of_nat d)); [lia|]. auto.
Qed.
Print Assumptions C18_width.

(** Only the first row is checked: whatever the lengths of the other rows, their
    scores are computed over the common prefix, silently. *)
Theorem C18_refuted : forall (A : arith) (L : Type) (c : linear A L) d K b (row0 : list A) (rest : list (list A)),
  fitted_linear c d K b -> length row0 = d -> exists s, decision_function c (ll (row0 :: rest)) = Ok s.
Proof. intros A L c d K b row0 rest F H0. destruct (dec_rows c d K b _ row0 rest F eq_refl H0) as (s & E & _). eauto. Qed.
Print Assumptions C18_refuted.

(** What holds: the scores of every row, ragged or not, are those of the row cut
    to the model's width; the ValueError is for the first row only. *)
Theorem C18_partial : forall (A : arith) (L : Type) (c : linear A L) d K b (row0 : list A) (rest : list (list A)),
  fitted_linear c d K b ->
  (length row0 = d -> exists S s, decision_function c (ll (row0 :: rest)) = Ok s /\ scores_are K S s /\
     Forall2 (affine (l_coef c) b) (row0 :: rest) S) /\
  (length row0 <> d -> decision_function c (ll (row0 :: rest)) = Err ValueError).
Proof.
  intros A L c d K b row0 rest F. split; intro H0.
  - destruct (dec_rows c d K b (row0 :: rest) row0 rest F eq_refl H0) as (s & E & Hs). eexists _, s. split; [exact E|]. split; [exact Hs|].
    apply Forall2_map_r. clear - F. destruct F as (RC & _ & _ & Lb). generalize (row0 :: rest). intro M.
    induction M; constructor; auto. apply affine_row_ok. rewrite Lb. destruct RC as [-> _]. auto.
  - destruct F as (RC & HK & HI & Lb). unfold decision_function. change (check_array (ll (row0 :: rest)) HAllow) with (Ok (ll (row0 :: rest))). cbn [bind].
    unfold shape1 at 1 2. rewrite (shape_ll' _ _ _ RC HK). cbn [bind]. unfold shape, ll. cbn [items bind map]. cbn [length].
    destruct (Z.eqb_spec (Z.of_nat (length row0)) (Z.of_nat d)); [lia|]. auto.
Qed.
Print Assumptions C18_partial.

(** Rows longer than the model contribute their first [d] cells only. *)
Theorem C18_extra_cells_ignored : forall (A : arith) (x y w : list A), length w = length x -> dotp (x ++ y) w = dotp x w.
Proof.
  intros A x y w H. unfold dotp. replace (combine (x ++ y) w) with (combine x w); auto.
  revert w H. induction x as [|a x IH]; intros [|b w] H; try discriminate; [destruct y; auto|]. simpl. f_equal. apply IH. simpl in H. lia.
Qed.
Print Assumptions C18_extra_cells_ignored.

(** A float [intercept_] (fit_intercept=False) becomes one copy per class. *)
Theorem C18_float_intercept : forall (A : arith) (L : Type) coef (classes : list L) (x : A) mc so lo,
  l_intercept (linear_convert coef classes (Some (IFloat x)) mc so lo) = Some (repeat x (length classes)).
Proof.
  intros. reflexivity.
Qed.
Print Assumptions C18_float_intercept.

Definition lin2 {A : arith} : linear A bool :=
  linear_convert [[one; ofZ 2]] [false; true] (Some (IArray [one])) (Some (lit "ovr")) (Some (lit "lbfgs")) (Some (lit "log")).
Definition lin3 {A : arith} : linear A nat :=
  linear_convert [[one; zero]; [zero; one]; [one; one]] [0; 1; 2] (Some (IArray [zero; zero; zero])) (Some (lit "multinomial")) (Some (lit "lbfgs")) None.
Example C18_example : forall A : arith,
  fitted_linear (A:=A) lin2 2 1 [one] /\ fitted_linear (A:=A) lin3 2 3 [zero; zero; zero] /\
  rect [[one; one]; [zero : A; one]] 2 2 /\ length [one : A; one] = 2.
Proof. intro A. repeat split; auto; repeat constructor. Qed.

(** C19.  predict, from the scores (doubles, NaN and signed zeros included). *)
Theorem C19_binary : forall (m : libm) (L : Type) (c : linear (F64 m) L) X s, decision_function c X = Ok (D1 s) ->
  forall out, linear_predict c X = Ok out <->
    Forall2 (fun x y => (ltb zero x = true /\ nth_error (l_classes c) 1 = Some y) \/
                        (ltb zero x = false /\ nth_error (l_classes c) 0 = Some y)) s out.
Proof.
  intros m L c X s H out. unfold linear_predict. rewrite H. cbn [bind]. rewrite mapM_Forall2. apply Forall2_iff.
  intros x y. rewrite lnth_ok. change (gtb x zero) with (ltb zero x). destruct (ltb zero x); split; try tauto; intros [[]|[]]; tauto || discriminate.
Qed.
Print Assumptions C19_binary.

Theorem C19_multi : forall (m : libm) (L : Type) (c : linear (F64 m) L) X S, decision_function c X = Ok (D2 S) ->
  forall out, linear_predict c X = Ok out <->
    Forall2 (fun s y => exists k, best s k /\ nth_error (l_classes c) k = Some y) S out.
Proof. intros m L c X S H out. unfold linear_predict. rewrite H. cbn [bind]. apply (pick_ok _ (F64_ord m)). Qed.
Print Assumptions C19_multi.

(** With as many classes as scores (two for one score), predict always returns. *)
Theorem C19_total : forall (m : libm) (L : Type) (c : linear (F64 m) L) d K b (M : list (list (F64 m))) r,
  fitted_linear c d K b -> rect M r d -> 1 <= r ->
  length (l_classes c) = (if K =? 1 then 2 else K) ->
  exists out, linear_predict c (ll M) = Ok out /\ length out = r.
Proof.
  intros m L c d K b M r F RM Hr HC. destruct (C18_dense _ _ c d K b M r F RM Hr) as (S & s & E & HS & HA).
  assert (LS : length S = r) by (rewrite <- (Forall2_len _ _ _ HA); apply RM).
  assert (G : forall T U (f : T -> res U) l, (forall x, In x l -> exists y, f x = Ok y) -> exists out, mapM f l = Ok out).
  { intros T U f l Hf. induction l as [|x l IH]; [exists []; auto|]. destruct (Hf x (or_introl eq_refl)) as [y Ey].
    destruct IH as [o Eo]; [intros; apply Hf; right; auto|]. exists (y :: o). simpl. rewrite Ey. simpl. rewrite Eo. auto. }
  unfold linear_predict. rewrite E. cbn [bind]. destruct HS as [[NK ->]|[-> (l & -> & ->)]].
  - replace (K =? 1) with false in HC by (symmetry; apply Nat.eqb_neq; auto).
    destruct (G _ _ (fun a : list (F64 m) => i <- argmax a;; lnth (l_classes c) i) S) as [out Eo].
    + intros s Hs. apply In_nth_error in Hs. destruct Hs as [i Hi].
      destruct (nth_error_len _ _ _ _ (Forall2_len _ _ _ HA) Hi) as [row Hrow].
      destruct (proj2 (proj1 (Forall2_nth_error _ _ _) HA) i row s Hrow Hi) as [Ls _].
      destruct F as ([LC _] & HK & _). rewrite LC in Ls. destruct s as [|s0 s]; [cbn [length] in Ls; lia|].
      destruct (argmax_total (F64_ord m) (s0 :: s) ltac:(discriminate)) as [k Ek]. rewrite Ek. cbn [bind].
      apply (argmax_iff (F64_ord m)) in Ek. apply best_lt in Ek. rewrite Ls in Ek.
      destruct (nth_error (l_classes c) k) as [y|] eqn:Ey.
      * exists y. apply lnth_ok. auto.
      * apply nth_error_None in Ey. exfalso. lia.
    + exists out. split; auto. rewrite (mapM_length _ _ _ Eo). auto.
  - simpl in HC. rewrite map_length in LS.
    destruct (G _ _ (fun x : F64 m => lnth (l_classes c) (if gtb x zero then 1 else 0)) l) as [out Eo].
    + intros x _. destruct (l_classes c) as [|c0 [|c1 ?]]; try discriminate HC. destruct (gtb x zero); eexists; reflexivity.
    + exists out. split; auto. rewrite (mapM_length _ _ _ Eo). auto.
Qed.
Print Assumptions C19_total.

(** Zero scores of either sign, and NaN, go to the first class. *)
Example C19_example : forall m : libm,
  ltb (zero : F64 m) (B754_zero true) = false /\ ltb (zero : F64 m) (B754_zero false) = false /\ ltb (zero : F64 m) nanv = false /\
  ltb (zero : F64 m) one = true /\ linear_predict (A:=F64 m) lin2 (ll [[one; one]]) = Ok [true] /\
  linear_predict (A:=F64 m) lin3 (ll [[one; one]; [opp one; one]]) = Ok [2; 1].
Proof. intro m. repeat split; vm_compute; reflexivity. Qed.

(** C20.  Exact arithmetic.  One-vs-rest: the logistic function of each score,
    (1 - p, p) for one score, divided by their sum otherwise; multinomial: the
    softmax of the scores ([-s, s] for one score).  In all cases every row is a
    probability distribution. *)
Definition ovr_probs (s : list R) : list R := map (fun x => logistic x / Rsum (map logistic s))%R s.
Theorem C20_ovr_exact : forall (L : Type) (c : linear XR L) f X, one_vs_rest c f ->
  (forall s, decision_function c X = Ok (D1 (fins s)) ->
     f X = Ok (finss (map (fun x => [(1 - logistic x)%R; logistic x]) s)) /\
     Forall distribution (map (fun x => [(1 - logistic x)%R; logistic x]) s)) /\
  (forall S, decision_function c X = Ok (D2 (finss S)) -> Forall (fun s => s <> []) S ->
     f X = Ok (finss (map ovr_probs S)) /\ Forall distribution (map ovr_probs S)).
Proof.
  intros L c f X H. split.
  - intros s E. rewrite (ovr_route c f X H). unfold predict_proba_lr. rewrite E. cbn [bind]. split.
    + unfold fins at 1. rewrite mapM_map. unfold finss. rewrite map_map. apply mapM_pure. intros x _. rewrite expit_XR. cbn [bind]. rewrite x_one. reflexivity.
    + apply Forall_map, Forall_forall. intros x _. pose proof (logistic_pos x). split; [repeat constructor; lra|simpl; lra].
  - intros S E N. rewrite (ovr_route c f X H). unfold predict_proba_lr. rewrite E. cbn [bind].
    assert (P : forall s, s <> [] -> (0 < Rsum (map logistic s))%R).
    { intros s Hs. apply Rsum_pos_lt; [destruct s; [congruence|discriminate]|apply logistics_pos]. }
    assert (E1 : mapM (mapM (expit (A:=XR))) (finss S) = Ok (finss (map (map logistic) S))).
    { unfold finss. rewrite mapM_map, map_map. apply mapM_pure. intros s _. apply mapM_fins, expit_XR. }
    rewrite E1. cbn [bind]. split.
    + unfold finss. rewrite !map_map, mapM_map. apply mapM_pure. intros s Hs. rewrite Forall_forall in N. rewrite normalise_XR by auto.
      unfold ovr_probs. rewrite map_map. auto.
    + apply Forall_map. eapply Forall_impl; [|exact N]. intros s Hs. unfold ovr_probs.
      replace (map (fun x => logistic x / Rsum (map logistic s))%R s) with (map (fun x => x / Rsum (map logistic s))%R (map logistic s)) by apply map_map.
      apply normalise_dist; auto. { destruct s; [congruence|discriminate]. }
      eapply Forall_impl; [|apply logistics_pos]. simpl. intros; lra.
Qed.
Print Assumptions C20_ovr_exact.

Theorem C20_multinomial_exact : forall (L : Type) (c : linear XR L) f X, multinomial c f ->
  (forall s, decision_function c X = Ok (D1 (fins s)) ->
     f X = Ok (finss (map (fun x => softmax [(- x)%R; x]) s)) /\ Forall distribution (map (fun x => softmax [(- x)%R; x]) s)) /\
  (forall S, decision_function c X = Ok (D2 (finss S)) -> Forall (fun s => s <> []) S ->
     f X = Ok (finss (map softmax S)) /\ Forall distribution (map softmax S)).
Proof.
  intros L c f X H. split.
  - intros s E. rewrite (multi_route c f X H), E. cbn [bind]. split.
    + unfold fins at 1. rewrite mapM_map. unfold finss. rewrite map_map. apply mapM_pure. intros x _. apply (sfmax_XR [(- x)%R; x]).
    + apply Forall_map, Forall_forall. intros x _. apply softmax_dist. discriminate.
  - intros S E N. rewrite (multi_route c f X H), E. cbn [bind]. split.
    + unfold finss. rewrite mapM_map, map_map. apply mapM_pure. intros s _. apply sfmax_XR.
    + apply Forall_map. eapply Forall_impl; [|exact N]. intros s Hs. apply softmax_dist; auto.
Qed.
Print Assumptions C20_multinomial_exact.

(** Doubles.  One-vs-rest with one score: always two numbers in [0,1]. *)
Theorem C20_ovr_binary_float : forall (m : libm) (L : Type) (c : linear (F64 m) L) f X s, exp_nonneg m -> one_vs_rest c f ->
  decision_function c X = Ok (D1 s) -> Forall (fun x => isnan x = false) s ->
  exists ps, f X = Ok (map (fun p => [sub one p; p]) ps) /\
    Forall2 (fun x p => expit x = Ok p /\ leb zero p = true /\ leb p one = true /\
                        leb zero (sub one p) = true /\ leb (sub one p) one = true) s ps.
Proof.
  intros m L c f X s HE H E N. rewrite (ovr_route c f X H). unfold predict_proba_lr. rewrite E. cbn [bind].
  clear E. induction N as [|x s Hx N (ps & E & F)]; [exists []; auto|].
  destruct (expit_unit m HE x Hx) as (p & Ep & P0 & P1). exists (p :: ps). split.
  - cbn [mapM map]. rewrite Ep. cbn [bind]. rewrite E. auto.
  - constructor; auto. pose proof (one_minus_unit m p P0 P1). tauto.
Qed.
Print Assumptions C20_ovr_binary_float.

(** One-vs-rest with several scores: the logistic values divided by their sum,
    all in [0,1]; but a row of NaN when they are all zero. *)
Theorem C20_ovr_multi_float : forall (m : libm) (L : Type) (c : linear (F64 m) L) f X S, exp_nonneg m -> one_vs_rest c f ->
  decision_function c X = Ok (D2 S) -> Forall (fun s => Forall (fun x => isnan x = false) s /\ (Z.of_nat (length s) <= 2 ^ 53)%Z) S ->
  exists P, f X = Ok P /\
    Forall2 (fun s p => exists e, Forall2 (fun x q => expit x = Ok q) s e /\ length p = length s /\
       ((eqb (psum e) zero = false /\ Forall2 (fun q v => div q (psum e) = Ok v /\ leb zero v = true /\ leb v one = true) e p) \/
        (eqb (psum e) zero = true /\ Forall (fun v => v = nanv) p))) S P.
Proof.
  intros m L c f X S HE H E N. rewrite (ovr_route c f X H). unfold predict_proba_lr. rewrite E. cbn [bind]. clear E.
  induction N as [|s S [Hs Ls] N (P & E & F)]; [exists []; auto|].
  destruct (expit_all m HE s Hs) as (e & Ee & Fe & Ue). cbn [mapM]. rewrite Ee. cbn [bind]. inv_bind E. rewrite E0. cbn [bind mapM].
  assert (Le : length e = length s) by (symmetry; apply (Forall2_len _ _ _ Fe)).
  rewrite <- Le in Ls. destruct (psum_units m e Ue Ls) as [P0 PF].
  destruct (eqb (psum e) zero) eqn:Z.
  - rewrite (normalise_z m e Z). cbn [bind]. rewrite E. cbn [bind]. eexists. split; [reflexivity|]. constructor; auto.
    exists e. split; auto. rewrite map_length. split; auto. right. split; auto. apply Forall_map, Forall_forall. auto.
  - rewrite (normalise_nz m e Z). 
    destruct (normalised_unit (F64_unit m) e) as (q & Eq & Lq & Uq); auto.
    { eapply Forall_impl; [|exact Ue]. simpl. tauto. }
    rewrite Eq. cbn [bind]. rewrite E. cbn [bind]. eexists. split; [reflexivity|]. constructor; auto.
    exists e. split; auto. split; [congruence|]. left. split; auto. apply mapM_Forall2 in Eq.
    clear - Eq Uq. revert Eq. generalize (psum e) as t. intros t Eq. induction Eq; constructor; inversion Uq; subst; tauto || auto.
Qed.
Print Assumptions C20_ovr_multi_float.

(** The row of NaN does occur: three scores of -1000. *)
Definition lin_const {A : arith} (mc : string) (x : A) : linear A nat :=
  linear_convert [[zero]; [zero]; [zero]] [0; 1; 2] (Some (IArray [x; x; x])) (Some (lit mc)) (Some (lit "lbfgs")) None.
Lemma const_dec : forall (m : libm) mc (x : F64 m), is_finite x = true -> x <> B754_zero true ->
  decision_function (A:=F64 m) (lin_const mc x) (ll [[zero]]) = Ok (D2 [[x; x; x]]).
Proof.
  intros m mc x F N. assert (E : add (zero : F64 m) x = x).
  { destruct (add_0_id x) as [H|H]; [|congruence]. unfold zero, ofZ. exact H. }
  change (decision_function (A:=F64 m) (lin_const mc x) (ll [[zero]])) with (Ok (D2 [[add (zero : F64 m) x; add (zero : F64 m) x; add (zero : F64 m) x]])).
  rewrite E. auto.
Qed.
Theorem C20_saturated_refuted : forall m : libm, exp_overflows m (f_opp fm1000) ->
  logistic_predict_proba (A:=F64 m) (lin_const "ovr" (fm1000 : F64 m)) (ll [[zero]]) = Ok [[nanv; nanv; nanv]].
Proof.
  intros m H. assert (F : is_finite fm1000 = true) by apply fm1000_val.
  assert (D := const_dec m "ovr" fm1000 F). unfold logistic_predict_proba. rewrite is_ovr_yes by (left; reflexivity). cbn [bind].
  unfold predict_proba_lr. rewrite D by (intro Q; pose proof (proj2 fm1000_val) as V; rewrite Q in V; simpl in V; lra). cbn [bind mapM].
  assert (E : expit (fm1000 : F64 m) = Ok zero).
  { unfold expit. change (opp (fm1000 : F64 m)) with (f_opp fm1000). rewrite (safe_exp_fin m (f_opp fm1000)) by (apply opp_finite; auto). rewrite H. reflexivity. }
  rewrite E. reflexivity.
Qed.
Print Assumptions C20_saturated_refuted.

(** Multinomial on doubles: in [0,1] as long as the exponentials neither
    overflow nor all vanish. *)
Theorem C20_multinomial_float_partial : forall (m : libm) (L : Type) (c : linear (F64 m) L) f X (S Es : list (list (F64 m))), exp_nonneg m -> multinomial c f ->
  decision_function c X = Ok (D2 S) \/ (exists s, decision_function c X = Ok (D1 s) /\ S = map (fun x => [opp x; x]) s) ->
  Forall2 (fun s (es : list (F64 m)) => Forall2 (fun x e => is_finite x = true /\ m_exp m x = Some e) s es /\ finite (psum es) /\ eqb (psum es) zero = false) S Es ->
  exists P, f X = Ok P /\
    Forall2 (fun s p => length p = length s /\ Forall (fun q => leb zero q = true /\ leb q one = true) p) S P.
Proof.
  intros m L c f X S Es HE H E HS.
  assert (Q : f X = mapM sfmax S).
  { rewrite (multi_route c f X H). destruct E as [->|(s & -> & ->)]; cbn [bind]; auto. symmetry. apply mapM_map. }
  rewrite Q. clear E Q H. induction HS as [|s es S Es (H1 & H2 & H3) HS (P & E & F)]; [exists []; auto|].
  destruct (sfmax_float m HE s es H1 H2 H3) as (p & Ep & Lp & Up). exists (p :: P). split; [cbn [mapM]; rewrite Ep; cbn [bind]; rewrite E; auto|].
  constructor; auto.
Qed.
Print Assumptions C20_multinomial_float_partial.

(** What is missing from the last theorem: scores of 1000 give NaN
    probabilities, scores of -1000 a ZeroDivisionError. *)
Theorem C20_multinomial_overflow_refuted : forall m : libm, exp_overflows m f1000 ->
  logistic_predict_proba (A:=F64 m) (lin_const "multinomial" (f1000 : F64 m)) (ll [[zero]]) = Ok [[nanv; nanv; nanv]].
Proof.
  intros m H. assert (F : is_finite f1000 = true) by apply f1000_val.
  assert (D := const_dec m "multinomial" f1000 F). unfold logistic_predict_proba. rewrite is_ovr_no by (repeat split; try discriminate; intros [Q|[Q|[Q _]]]; discriminate).
  cbn [bind]. rewrite D by (intro Q; pose proof (proj2 f1000_val) as V; rewrite Q in V; simpl in V; lra). cbn [bind mapM].
  unfold sfmax. cbn [mapM]. rewrite (safe_exp_fin m f1000 F). unfold exp_overflows in H. rewrite !H. reflexivity.
Qed.
Print Assumptions C20_multinomial_overflow_refuted.

Theorem C20_multinomial_underflow_refuted : forall m : libm, exp_underflows m fm1000 ->
  logistic_predict_proba (A:=F64 m) (lin_const "multinomial" (fm1000 : F64 m)) (ll [[zero]]) = Err ZeroDivisionError.
Proof.
  intros m [s H]. assert (F : is_finite fm1000 = true) by apply fm1000_val.
  assert (D := const_dec m "multinomial" fm1000 F). unfold logistic_predict_proba. rewrite is_ovr_no by (repeat split; try discriminate; intros [Q|[Q|[Q _]]]; discriminate).
  cbn [bind]. rewrite D by (intro Q; pose proof (proj2 fm1000_val) as V; rewrite Q in V; simpl in V; lra). cbn [bind mapM].
  unfold sfmax. cbn [mapM]. rewrite (safe_exp_fin m fm1000 F), !H. destruct s; reflexivity.
Qed.
Print Assumptions C20_multinomial_underflow_refuted.

(** predict_log_proba is the guarded logarithm of predict_proba, cell by cell,
    and fails exactly when predict_proba does. *)
Theorem C20_log_proba : forall (m : libm) (L : Type) (c : linear (F64 m) L) X,
  (forall P, logistic_predict_proba c X = Ok P -> exists Q, logistic_predict_log_proba c X = Ok Q /\ Forall2 (Forall2 (fun p q => safe_log p = Ok q)) P Q) /\
  (forall e, logistic_predict_proba c X = Err e -> logistic_predict_log_proba c X = Err e) /\
  (forall P, sgd_predict_proba c X = Ok P -> exists Q, sgd_predict_log_proba c X = Ok Q /\ Forall2 (Forall2 (fun p q => safe_log p = Ok q)) P Q) /\
  (forall e, sgd_predict_proba c X = Err e -> sgd_predict_log_proba c X = Err e).
Proof.
  intros m L c X.
  assert (G : forall P, exists Q, mapM (mapM (safe_log (A:=F64 m))) P = Ok Q /\ Forall2 (Forall2 (fun p q => safe_log p = Ok q)) P Q).
  { intro P. destruct (mapM_rect_total (safe_log (A:=F64 m)) P) as [Q E].
    - intros x. destruct x as [[]|[]| |[] ? ? ?]; eexists; reflexivity.
    - exists Q. split; auto. apply mapM_Forall2 in E. eapply Forall2_imp; [|exact E]. intros p q Hq. apply mapM_Forall2. exact Hq. }
  repeat split.
  - intros P H. unfold logistic_predict_log_proba. rewrite H. apply G.
  - intros e H. unfold logistic_predict_log_proba. rewrite H. auto.
  - intros P H. unfold sgd_predict_log_proba. assert (K := H). unfold sgd_predict_proba in K. inv_bind K. rewrite E. cbn [bind]. rewrite H. apply G.
  - intros e H. unfold sgd_predict_log_proba. destruct (check_proba c) eqn:E; cbn [bind].
    + rewrite H. auto.
    + unfold sgd_predict_proba in H. rewrite E in H. auto.
Qed.
Print Assumptions C20_log_proba.

(** Without [multi_class] the probabilities are refused. *)
Theorem C20_no_setting : forall (A : arith) (L : Type) (c : linear A L) X, l_multi c = None -> logistic_predict_proba c X = Err AttributeError.
Proof. intros A L c X H. unfold logistic_predict_proba, is_ovr. rewrite H. auto. Qed.
Print Assumptions C20_no_setting.

Example C20_example :
  (forall A : arith, one_vs_rest (A:=A) lin2 (logistic_predict_proba lin2) /\ one_vs_rest (A:=A) lin2 (sgd_predict_proba lin2) /\
     multinomial (A:=A) lin3 (logistic_predict_proba lin3)) /\
  (exp_nonneg crlibm /\ exp_overflows crlibm f1000 /\ exp_underflows crlibm fm1000) /\
  decision_function (A:=XR) (lin_const "ovr" (XFin 2 : XR)) (ll [[XFin 0 : XR]]) = Ok (D2 [fins [2; 2; 2]]%R).
Proof.
  split; [|split].
  - intro A. split; [left; split; auto; left; auto|]. split; [right; auto|]. split; auto. repeat split; try discriminate. intros [Q|[Q|[Q _]]]; discriminate.
  - split; [apply cr_exp_nonneg|]. split; [apply cr_over|apply cr_under].
  - unfold decision_function. simpl. repeat f_equal; lra.
Qed.

(** C21.  Exact arithmetic: predict returns the label of the first largest
    probability, for every way of computing probabilities. *)
Theorem C21_exact : forall (L : Type) (c : linear XR L) f X, one_vs_rest c f \/ multinomial c f ->
  (exists s, decision_function c X = Ok (D1 (fins s))) \/
  (exists S, decision_function c X = Ok (D2 (finss S)) /\ Forall (fun s => s <> []) S) ->
  exists P, f X = Ok (finss P) /\ Forall distribution P /\
    forall out, linear_predict c X = Ok out <->
      Forall2 (fun p y => exists i, Rargmax p i /\ nth_error (l_classes c) i = Some y) P out.
Proof.
  assert (LP : forall (L : Type) (c : linear XR L) X s (g : R -> list R),
    (forall x i, Rargmax (g x) i <-> i = if Rlt_dec 0 x then 1 else 0) -> decision_function c X = Ok (D1 (fins s)) ->
    forall out, linear_predict c X = Ok out <->
      Forall2 (fun p y => exists i, Rargmax p i /\ nth_error (l_classes c) i = Some y) (map g s) out).
  { intros L c X s g Hg E out. unfold linear_predict. rewrite E. cbn [bind]. unfold fins. rewrite mapM_map, mapM_Forall2, Forall2_map_l.
    apply Forall2_iff. intros x y. rewrite lnth_ok. change (gtb (XFin x : XR) zero) with (ltb (zero : XR) (XFin x)). rewrite x_zero. simpl. unfold Rltb.
    split.
    - intro Q. eexists. split; [apply Hg; reflexivity|]. destruct (Rlt_dec 0 x); auto.
    - intros (i & Hi & Q). apply Hg in Hi. subst i. destruct (Rlt_dec 0 x); auto. }
  assert (LM : forall (L : Type) (c : linear XR L) X S (g : list R -> list R),
    (forall s i, In s S -> Rargmax (g s) i <-> Rargmax s i) -> decision_function c X = Ok (D2 (finss S)) ->
    forall out, linear_predict c X = Ok out <->
      Forall2 (fun p y => exists i, Rargmax p i /\ nth_error (l_classes c) i = Some y) (map g S) out).
  { intros L c X S g Hg E out. unfold linear_predict. rewrite E. cbn [bind]. rewrite (pick_ok (l_classes c) XR_ord). unfold finss. rewrite !Forall2_map_l.
    clear E. revert out. induction S as [|s S IH]; intros [|y out]; split; intro Q; inversion Q; subst; constructor.
    - destruct H2 as (i & Hi & Hy). exists i. split; auto. apply Hg; [left; auto|]. apply best_fins, Hi.
    - apply IH; auto. intros; apply Hg; right; auto.
    - destruct H2 as (i & Hi & Hy). exists i. split; auto. apply best_fins. apply Hg; [left; auto|auto].
    - apply IH; auto. intros; apply Hg; right; auto. }
  intros L c f X [H|H] [(s & E)|(S & E & N)].
  - destruct (proj1 (C20_ovr_exact L c f X H) s E) as [Q D]. eexists. split; [exact Q|]. split; [exact D|]. apply LP; auto.
    intros x i. rewrite Rargmax_two. assert (Z : (1 - logistic x < logistic x <-> 0 < x)%R). { rewrite <- (logistic_lt 0 x), logistic_0. lra. }
    destruct (Rlt_dec (1 - logistic x) (logistic x)), (Rlt_dec 0 x); tauto.
  - destruct (proj2 (C20_ovr_exact L c f X H) S E N) as [Q D]. eexists. split; [exact Q|]. split; [exact D|]. apply LM; auto.
    intros s i Hs. rewrite Forall_forall in N. specialize (N s Hs). unfold ovr_probs. apply Rargmax_map. intros a b Hab.
    assert (0 < Rsum (map logistic s))%R by (apply Rsum_pos_lt; [destruct s; [congruence|discriminate]|apply logistics_pos]).
    apply logistic_lt in Hab. unfold Rdiv. apply Rmult_lt_compat_r; auto. apply Rinv_0_lt_compat. auto.
  - destruct (proj1 (C20_multinomial_exact L c f X H) s E) as [Q D]. eexists. split; [exact Q|]. split; [exact D|]. apply LP; auto.
    intros x i. rewrite Rargmax_softmax, Rargmax_two. destruct (Rlt_dec (- x) x), (Rlt_dec 0 x); try tauto; lra.
  - destruct (proj2 (C20_multinomial_exact L c f X H) S E N) as [Q D]. eexists. split; [exact Q|]. split; [exact D|]. apply LM; auto.
    intros s i _. apply Rargmax_softmax.
Qed.
Print Assumptions C21_exact.

(** On doubles the claim is false: a score of 2^-60 is positive, so predict says
    class 1, but both probabilities round to 0.5 and the first one wins. *)
Definition lin_tiny {A : arith} (x : A) : linear A nat :=
  linear_convert [[zero]] [0; 1] (Some (IArray [x])) (Some (lit "ovr")) (Some (lit "lbfgs")) None.
Theorem C21_refuted : forall m : libm, exp_is_1_at m (f_opp ftiny) ->
  linear_predict (A:=F64 m) (lin_tiny (ftiny : F64 m)) (ll [[zero]]) = Ok [1] /\
  exists p, logistic_predict_proba (A:=F64 m) (lin_tiny (ftiny : F64 m)) (ll [[zero]]) = Ok [p] /\ best p 0.
Proof.
  intros m (y & Ey & Fy & Vy). destruct ftiny_val as [FT VT].
  assert (NZ : ftiny <> B754_zero true). { intro Q. rewrite Q in VT. simpl in VT. pose proof (bpow_gt_0 radix2 (-60)) as Z. simpl in Z. lra. }
  assert (D : decision_function (A:=F64 m) (lin_tiny (ftiny : F64 m)) (ll [[zero]]) = Ok (D1 [ftiny : F64 m])).
  { assert (E : add (zero : F64 m) ftiny = ftiny). { destruct (add_0_id ftiny) as [H|H]; [|congruence]. unfold zero, ofZ. exact H. }
    change (decision_function (A:=F64 m) (lin_tiny (ftiny : F64 m)) (ll [[zero]])) with (Ok (D1 [add (zero : F64 m) ftiny])). rewrite E. auto. }
  split.
  - apply (proj2 (C19_binary m nat _ _ _ D [1])). constructor; auto.
  - unfold logistic_predict_proba. rewrite is_ovr_yes by (left; reflexivity). cbn [bind]. unfold predict_proba_lr. rewrite D. cbn [bind mapM].
    assert (Q : exists h, expit (ftiny : F64 m) = Ok h /\ b2x h = XFin (1/2)).
    { unfold expit. change (opp (ftiny : F64 m)) with (f_opp ftiny). rewrite (safe_exp_fin m (f_opp ftiny)) by (apply opp_finite; auto). rewrite Ey. cbn [bind].
      f64. pose proof (f_div_x (f_ofZE 1 0) (f_add (f_ofZE 1 0) y)) as Q. rewrite f_add_x, b2x_one, (b2x_fin y), Vy in Q by auto. simpl in Q.
      replace (1 + 1)%R with (IZR 2) in Q by lra. rewrite fround_IZR in Q by lia. simpl in Q.
      replace (Reqb 2 0) with false in Q by (symmetry; apply Reqb_neq; lra).
      destruct (f_div _ _) as [h|]; [|discriminate]. exists h. split; auto. simpl in Q. injection Q as Q. rewrite Q. apply half_fround. }
    destruct Q as (h & Eh & Vh). rewrite Eh. cbn [bind]. eexists. split; [reflexivity|].
    assert (S : b2x (f_sub (f_ofZE 1 0) h) = XFin (1/2)).
    { rewrite f_sub_x, b2x_one, Vh. unfold x_sub. simpl. replace (1 + - (1 / 2))%R with (1 / 2)%R by lra. apply half_fround. }
    right. exists (sub one h), [h], (sub one h). f64. split; auto. split; [rewrite f_nan_x, S; auto|]. split; auto. split; [rewrite f_nan_x, S; auto|].
    split; [|intros; lia]. intros j w Hj. destruct j as [|[|[|]]]; try discriminate; injection Hj as <-; rewrite f_ltb_x, ?S, ?Vh; simpl; unfold Rltb; destruct (Rlt_dec _ _); auto; lra.
Qed.
Print Assumptions C21_refuted.

(** What holds on doubles, for a monotone exp and finite scores: whenever one
    probability is strictly the largest, predict returns its label. *)
Theorem C21_partial : forall (m : libm) (L : Type) (c : linear (F64 m) L) f X P out, exp_nonneg m -> exp_monotone m -> exp_at_0 m ->
  one_vs_rest c f \/ multinomial c f -> f X = Ok P -> linear_predict c X = Ok out ->
  (forall s, decision_function c X = Ok (D1 s) -> Forall (fun x => is_finite x = true) s) ->
  (forall S, decision_function c X = Ok (D2 S) -> Forall (fun s => Forall (fun x => is_finite x = true) s /\ (Z.of_nat (length s) <= 2 ^ 53)%Z) S) ->
  Forall2 (fun p y => forall i, strict_max p i -> nth_error (l_classes c) i = Some y) P out.
Proof.
  intros m L c f X P out HE HM H0 H EP EO F1 F2. unfold linear_predict in EO.
  assert (R : forall (s : list (F64 m)) y, best s y -> forall i, best s i -> y = i :> nat).
  { intros s y B i B'. eapply (best_unique); eauto. }
  destruct H as [H|H]; [rewrite (ovr_route c f X H) in EP; unfold predict_proba_lr in EP|rewrite (multi_route c f X H) in EP];
    (destruct (decision_function c X) as [[s|S]|e]; [| |discriminate]); cbn [bind] in EP, EO;
    try (specialize (F1 s eq_refl); clear F2); try (specialize (F2 S eq_refl); clear F1).
  - apply mapM_Forall2 in EP, EO. revert out EO. induction EP as [|x p s P Ep EP IH]; intros out EO; inversion EO; subst; constructor; inversion F1; subst.
    2: apply IH; auto. intros i (v & Hi & Hv). inv_bind Ep. injection Ep as <-. apply lnth_ok in H3.
    change (gtb x zero) with (ltb zero x) in H3.
    destruct (ltb zero x) eqn:Zx.
    + destruct i as [|[|[|]]]; try discriminate; [|exact H3]. exfalso. injection Hi as <-. specialize (Hv 1 a ltac:(lia) eq_refl).
      assert (Q : leb (sub one a) a = true); [|apply (leb_nltb (F64_ord m)) in Q; enough (true = false) by discriminate; exact (eq_trans (eq_sym Hv) Q)].
      apply (expit_nonneg m HE HM H0 x a); auto. apply (ltb_leb (F64_ord m)). auto.
    + destruct i as [|[|[|]]]; try discriminate; [exact H3|]. exfalso. injection Hi as <-. specialize (Hv 0 (sub one a) ltac:(lia) eq_refl).
      assert (Q : leb a (sub one a) = true); [|apply (leb_nltb (F64_ord m)) in Q; enough (true = false) by discriminate; exact (eq_trans (eq_sym Hv) Q)].
      apply (expit_nonpos m HE HM H0 x a); auto. apply (nltb_leb (F64_ord m)); auto. apply fin_not_nan. auto.
  - inv_bind EP. apply mapM_Forall2 in E, EP. apply (pick_ok _ (F64_ord m)) in EO.
    revert a P E EP out EO. induction S as [|s S IH]; intros a P E EP out EO; inversion E; subst; inversion EP; subst; inversion EO; subst; constructor; inversion F2; subst.
    2: eapply IH; eauto. intros i SM.
    match goal with H : ex (fun i => best _ i /\ _) |- _ => destruct H as (k & Bk & Yk) end.
    match goal with H : Forall _ s /\ _ |- _ => destruct H as [Fs Ls] end.
    match goal with E1 : mapM expit s = Ok _, E2 : normalise _ = Ok _ |- _ => pose proof (ovr_strict m HE HM s _ _ i Fs Ls E1 E2 SM) as B end. rewrite (R s i B k Bk). auto.
  - apply mapM_Forall2 in EP, EO. revert out EO. induction EP as [|x p s P Ep EP IH]; intros out EO; inversion EO; subst; constructor; inversion F1; subst.
    2: apply IH; auto. intros i SM. apply lnth_ok in H3. change (gtb x zero) with (ltb zero x) in H3.
    assert (B := sfmax_strict m HE HM [opp x; x] p i). rewrite (best_pm m x i); auto. apply B; auto. repeat constructor; auto. apply opp_finite. auto.
  - apply mapM_Forall2 in EP. apply (pick_ok _ (F64_ord m)) in EO.
    revert out EO. induction EP as [|s p S P Ep EP IH]; intros out EO; inversion EO; subst; constructor; inversion F2; subst.
    2: apply IH; auto. intros i SM. 
    match goal with H : ex (fun i => best _ i /\ _) |- _ => destruct H as (k & Bk & Yk) end.
    match goal with H : Forall _ s /\ _ |- _ => destruct H as [Fs Ls] end.
    assert (B := sfmax_strict m HE HM s _ i Fs Ep SM). rewrite (R s i B k Bk). auto.
Qed.
Print Assumptions C21_partial.

Example C21_example :
  exp_is_1_at crlibm (f_opp ftiny) /\ (exp_nonneg crlibm /\ exp_monotone crlibm /\ exp_at_0 crlibm) /\
  (exists s, decision_function (A:=XR) lin2 (ll [[XFin 1 : XR; XFin 2]]) = Ok (D1 (fins s)) /\ s = [6%R]).
Proof.
  split; [apply cr_tiny|]. split; [split; [apply cr_exp_nonneg|split; [apply cr_exp_monotone|apply cr_exp_0]]|].
  exists [6%R]. split; auto. unfold decision_function. simpl. repeat f_equal. lra.
Qed.

(** C22.  Which exception, or the one-vs-rest probabilities, for each loss. *)
Theorem C22_access : forall (A : arith) (L : Type) (c : linear A L) X,
  (l_loss c = None -> sgd_predict_proba c X = Err AttributeError /\ sgd_predict_log_proba c X = Err AttributeError) /\
  (forall s, l_loss c = Some s ->
     (s = lit "log" -> sgd_predict_proba c X = predict_proba_lr c X /\
                       sgd_predict_log_proba c X = (P <- predict_proba_lr c X ;; mapM (mapM safe_log) P)) /\
     ((~ exists u v, lit "log" = u ++ s ++ v) ->
        sgd_predict_proba c X = Err AttributeError /\ sgd_predict_log_proba c X = Err AttributeError) /\
     ((exists u v, lit "log" = u ++ s ++ v) -> s <> lit "log" ->
        sgd_predict_proba c X = Err NotImplementedError /\ sgd_predict_log_proba c X = Err NotImplementedError)).
Proof.
  intros A L c X. split.
  - intro H. unfold sgd_predict_log_proba, sgd_predict_proba, check_proba. rewrite H. auto.
  - intros s H. unfold sgd_predict_log_proba, sgd_predict_proba, check_proba, sgd_predict_proba_inner. rewrite H. cbn [getattr bind]. split; [|split].
    + intros ->. split; reflexivity.
    + intro N. destruct (str_in s (lit "log")) eqn:E; [apply str_in_ok in E; tauto|]. auto.
    + intros I N. apply str_in_ok in I. rewrite I. cbn [guard bind]. destruct (str_eqb s (lit "log")) eqn:E; [apply str_eqb_ok in E; congruence|]. auto.
Qed.
Print Assumptions C22_access.

(** A loss that is a proper substring of "log" (such as "lo" or "") is let
    through by the guard and fails later with NotImplementedError. *)
Theorem C22_refuted : forall (A : arith) (L : Type) (c : linear A L) X, l_loss c = Some (lit "lo") ->
  sgd_predict_proba c X = Err NotImplementedError.
Proof.
  intros A L c X H. apply (proj2 (proj2 (proj2 (C22_access A L c X) _ H))); [|discriminate].
  exists [], (lit "g"). reflexivity.
Qed.
Print Assumptions C22_refuted.

(** What holds: with a loss that is "log" or not a substring of "log" (all of
    scikit-learn's loss names), the claim. *)
Theorem C22_partial : forall (A : arith) (L : Type) (c : linear A L) X s, l_loss c = Some s ->
  s = lit "log" \/ (~ exists u v, lit "log" = u ++ s ++ v) ->
  (s = lit "log" /\ sgd_predict_proba c X = predict_proba_lr c X) \/
  (s <> lit "log" /\ sgd_predict_proba c X = Err AttributeError /\ sgd_predict_log_proba c X = Err AttributeError).
Proof.
  intros A L c X s H [->|N].
  - left. split; auto. apply (proj2 (C22_access A L c X) _ H). auto.
  - right. split; [|apply (proj2 (C22_access A L c X) _ H); auto]. intros ->. apply N. exists [], []. reflexivity.
Qed.
Print Assumptions C22_partial.

Example C22_example : (~ exists u v, lit "log" = u ++ lit "hinge" ++ v) /\ exists u v, lit "log" = u ++ lit "lo" ++ v.
Proof.
  split; [|exists [], (lit "g"); reflexivity].
  intros (u & v & E). apply (f_equal (@length _)) in E. rewrite !app_length in E. simpl in E. lia.
Qed.

(** C23.  Sparse rows whose keys increase (as tosparse builds them) give the
    results of the dense rows they store, bit for bit. *)
Theorem C23_stored : forall (m : libm) (L : Type) (c : linear (F64 m) L) d K b rows (M : list (list (F64 m))) r dt,
  fitted_linear c d K b -> Forall (Forall (fun w => is_finite w = true)) (l_coef c) ->
  Forall2 stores_sorted rows M -> rect M r d -> 1 <= r ->
  let S := Sp rows (Some (Z.of_nat d)) dt in
  decision_function c S = decision_function c (ll M) /\
  linear_predict c S = linear_predict c (ll M) /\
  logistic_predict_proba c S = logistic_predict_proba c (ll M) /\
  logistic_predict_log_proba c S = logistic_predict_log_proba c (ll M) /\
  sgd_predict_proba c S = sgd_predict_proba c (ll M) /\
  sgd_predict_log_proba c S = sgd_predict_log_proba c (ll M).
Proof.
  intros m L c d K b rows M r dt F HF HS RM Hr S.
  assert (E : decision_function c S = decision_function c (ll M)).
  { apply (dec_stored (F64_ok m) c d K b rows M r dt F); auto. eapply Forall_impl; [|exact HF]. intros w. apply Forall_impl.
    intros x Hx. unfold finite. f64. apply f_fin_iff. exists (B2R x). apply b2x_fin. auto. }
  unfold logistic_predict_log_proba, sgd_predict_log_proba, sgd_predict_proba, sgd_predict_proba_inner, logistic_predict_proba, linear_predict, predict_proba_lr.
  rewrite E. repeat split.
Qed.
Print Assumptions C23_stored.

(** In particular on tosparse of a matrix. *)
Theorem C23_tosparse : forall (m : libm) (L : Type) (c : linear (F64 m) L) d K b (M : list (list (F64 m))) r,
  fitted_linear c d K b -> Forall (Forall (fun w => is_finite w = true)) (l_coef c) -> rect M r d -> 1 <= r -> 1 <= d ->
  exists S, tosparse (ll M) = Ok S /\ decision_function c S = decision_function c (ll M) /\
    linear_predict c S = linear_predict c (ll M) /\ logistic_predict_proba c S = logistic_predict_proba c (ll M) /\
    sgd_predict_proba c S = sgd_predict_proba c (ll M).
Proof.
  intros m L c d K b M r F HF RM Hr Hd. eexists. split; [apply (tosparse_ok M r d RM Hr Hd)|].
  destruct (C23_stored m L c d K b (map sprow M) M r DFloat F HF) as (E1 & E2 & E3 & _ & E5 & _); auto.
  apply Forall2_map_l. clear. induction M; constructor; auto. apply sprow_stores.
Qed.
Print Assumptions C23_tosparse.

Example C23_example : forall m : libm,
  Forall (Forall (fun w => is_finite w = true)) (l_coef (lin3 (A:=F64 m))) /\
  stores_sorted (A:=F64 m) [(1%Z, one)] [zero; one].
Proof.
  intro m. split; [repeat constructor|]. split.
  - split; [repeat constructor; auto|]. split.
    + intros k [<-|[]]. simpl. lia.
    + intros [|[|[|]]] v H; try discriminate; injection H as <-.
      * right. split; [simpl; intros [Q|[]]; lia|reflexivity].
      * left. exists one. split; [left; reflexivity|auto].
  - repeat constructor.
Qed.
