(** C12-C13: averaging ensembles (pure_sklearn/ensemble/_bagging.py, _forest.py). *)
From Coq Require Import Reals Lia Lra.
From Flocq Require Import Core BinarySingleNaN.
From Verif Require Import Model.Py Model.Arith Model.F64 Model.XR Model.Utils Model.Base Model.Tree Model.Ensemble.
From Verif Require Import Spec.Matrix Spec.Ensembles Spec.Reals.
From Verif Require Import Proofs.Lib Proofs.Laws Proofs.Unit Proofs.Arrays Proofs.RealLib Proofs.Argmax Proofs.Ensemble.
Local Open Scope nat_scope.

(** Every member [k] of a forest, run on [X], returns the r x c matrix [Ps[k]]. *)
Definition members_return {A : arith} {L} (b : bagging A L) (X : arr A) (Ps : list (list (list A))) (r c : nat) : Prop :=
  Ps <> [] /\ Forall2 (fun p P => p X = Ok P /\ rect P r c) (b_members b) Ps.

(** C12.  predict_proba of a forest is the cell-wise mean of its members'. *)
Theorem C12_mean : forall (m : libm) (L : Type) (b : bagging (F64 m) L) X Ps r c,
  b_feats b = None -> members_return b X Ps r c -> 1 <= r -> (Z.of_nat (length Ps) <= 2 ^ 53)%Z ->
  exists P, bagging_predict_proba b X = Ok P /\ mean_of Ps P r c.
Proof.
  intros m L b X Ps r c HF [N HM] H1 HB.
  pose proof (Forall2_len _ _ _ HM) as Ln. apply bagging_mean; auto.
  - intro x. apply (u_div_ok _ (F64_unit m)). destruct (u_nat _ (F64_unit m) (length Ps) HB) as (_ & _ & P).
    assert (Q : 0 < length Ps) by (destruct Ps; [congruence|simpl; lia]). specialize (P Q).
    destruct (eqb (ofnat (length Ps) : F64 m) zero) eqn:E; auto.
    rewrite (o_eq_lt_r _ (F64_ord m) _ _ zero E), (o_irr _ (F64_ord m)) in P. discriminate.
  - clear - HM. induction HM as [|p P ps Ps [_ R] HM IH]; constructor; auto.
  - intros k P Hk. apply Forall2_nth_error in HM. destruct HM as [_ HM].
    destruct (nth_error_len _ _ _ _ Ln Hk) as [p E].
    rewrite (member_forest b X k p HF E). apply (HM k p P E Hk).
Qed.
Print Assumptions C12_mean.

(** If every member's probabilities are in [0,1], so are the mean's (doubles). *)
Theorem C12_unit : forall (m : libm) Ps (P : list (list (F64 m))) r c,
  Ps <> [] -> (Z.of_nat (length Ps) <= 2 ^ 53)%Z -> mean_of Ps P r c ->
  Forall (Forall (Forall (fun x => leb zero x = true /\ leb x one = true))) Ps ->
  Forall (Forall (fun x => leb zero x = true /\ leb x one = true)) P.
Proof. intros m Ps P r c. apply (mean_unit (F64_unit m)). Qed.
Print Assumptions C12_unit.

(** In exact arithmetic: cell (i,j) is the arithmetic mean of the members'
    cells, and if the members' rows are distributions so are the mean's. *)
Theorem C12_exact : forall (L : Type) (b : bagging XR L) X (Qs : list (list (list R))) r c,
  b_feats b = None -> members_return b X (map finss Qs) r c -> 1 <= r ->
  exists Q, bagging_predict_proba b X = Ok (finss Q) /\ rect Q r c /\
    (forall i j, i < r -> j < c -> exists v, cell Q i j = Some v /\
       v = Rmean (map (fun Qk => nth j (nth i Qk []) 0%R) Qs)) /\
    (Forall (Forall distribution) Qs -> Forall distribution Q).
Proof.
  intros L b X Qs r c HF [N HM] H1. assert (NQ : Qs <> []) by (destruct Qs; [simpl in N; congruence|discriminate]).
  assert (RQ : Forall (fun Q => rect Q r c) Qs).
  { apply Forall2_map_r in HM. clear - HM. induction HM as [|p P ps Ps [_ R] HM IH]; constructor; auto. apply rect_finss; auto. }
  destruct (bagging_mean b X (map finss Qs) r c) as (P & E & HP); auto.
  - symmetry. eapply Forall2_len; exact HM.
  - intro x. rewrite x_ofnat, map_length. assert (0 < INR (length Qs))%R by (apply lt_0_INR; destruct Qs; [congruence|simpl; lia]).
    apply (u_div_ok _ XR_unit). rewrite x_zero. simpl. apply Reqb_neq. lra.
  - apply Forall_map. eapply Forall_impl; [|exact RQ]. intros Q HQ. apply rect_finss in HQ. auto.
  - intros k P Hk. apply Forall2_nth_error in HM. destruct HM as [Ln HM].
    destruct (nth_error_len _ _ _ _ Ln Hk) as [p E].
    rewrite (member_forest b X k p HF E). apply (HM k p P E Hk).
  - exists (Rmeans Qs r c). rewrite E, (mean_exact Qs P r c NQ HP). split; auto.
    assert (RR : rect (Rmeans Qs r c) r c).
    { apply rect_finss. rewrite <- (mean_exact Qs P r c NQ HP). apply HP. }
    split; auto. split.
    + intros i j Hi Hj. destruct (rect_cell _ _ _ i j RR Hi Hj) as [v Hv]. exists v. split; auto.
      revert Hv. unfold Rmeans, cell. rewrite nth_error_map', nth_error_seq. destruct (Nat.ltb_spec i r); [|lia]. simpl.
      rewrite nth_error_map', nth_error_seq. destruct (Nat.ltb_spec j c); [|lia]. simpl. congruence.
    + intro HD. apply Rmeans_dist; auto. rewrite Forall_forall in *. auto.
Qed.
Print Assumptions C12_exact.

(** predict is the label at the first largest mean probability. *)
Theorem C12_predict : forall (m : libm) (L : Type) (b : bagging (F64 m) L) X out,
  bagging_predict b X = Ok out <->
  exists P, bagging_predict_proba b X = Ok P /\
    Forall2 (fun p y => exists i, best p i /\ nth_error (b_classes b) i = Some y) P out.
Proof. intros m L. apply (bagging_predict_ok (F64_ord m)). Qed.
Print Assumptions C12_predict.

Theorem C12_log_proba : forall (m : libm) (L : Type) (b : bagging (F64 m) L) X P,
  bagging_predict_proba b X = Ok P ->
  exists Q, bagging_predict_log_proba b X = Ok Q /\ Forall2 (Forall2 (fun p q => safe_log p = Ok q)) P Q.
Proof.
  intros m L b X P H. unfold bagging_predict_log_proba. rewrite H. cbn [bind]. rewrite apply_2d_ll.
  destruct (mapM_rect_total (safe_log (A:=F64 m)) P) as [Q E].
  - intros x. destruct x as [[]|[]| |[] ? ? ?]; eexists; reflexivity.
  - exists Q. split; auto. apply mapM_Forall2 in E. eapply Forall2_imp; [|exact E].
    intros p q Hq. apply mapM_Forall2. exact Hq.
Qed.
Print Assumptions C12_log_proba.

(** Two members returning constant rows: hypotheses met. *)
Definition two_members (m : libm) : bagging (F64 m) nat :=
  {| b_members := [fun _ => Ok [[one; zero]]; fun _ => Ok [[zero; one]]]; b_feats := None; b_classes := [3; 4] |}.
Example C12_case : forall m, members_return (two_members m) (ll [[one]]) [[[one; zero]]; [[zero; one]]] 1 2 /\
  bagging_predict (two_members m) (ll [[one]]) = Ok [3].
Proof. intro m. split; [split; [discriminate|repeat constructor]|vm_compute; reflexivity]. Qed.

(** C13.  With feature subsets and dense input, member [k] is given exactly the
    columns [fs[k]] of the input, in that order. *)
Theorem C13_dense : forall (m : libm) (L : Type) (b : bagging (F64 m) L) (fs : list (list nat)) (M : list (list (F64 m))) Ps r c,
  b_feats b = Some (map (map Z.of_nat) fs) -> length fs = length (b_members b) ->
  Ps <> [] -> length Ps = length (b_members b) -> 1 <= r -> (Z.of_nat (length Ps) <= 2 ^ 53)%Z ->
  (forall k p idx P, nth_error (b_members b) k = Some p -> nth_error fs k = Some idx -> nth_error Ps k = Some P ->
     exists M', columns idx M M' /\ p (ll M') = Ok P /\ rect P r c) ->
  exists P, bagging_predict_proba b (ll M) = Ok P /\ mean_of Ps P r c.
Proof.
  intros m L b fs M Ps r c HF LF N LP H1 HB HM.
  assert (K : forall k P, nth_error Ps k = Some P -> exists p idx, nth_error (b_members b) k = Some p /\ nth_error fs k = Some idx).
  { intros k P Hk. destruct (nth_error_len _ _ _ _ (eq_sym LP) Hk) as [p E1].
    destruct (nth_error_len _ _ _ _ LF E1) as [idx E2]. eauto. }
  apply bagging_mean; auto.
  - intro x. apply (u_div_ok _ (F64_unit m)). destruct (u_nat _ (F64_unit m) (length Ps) HB) as (_ & _ & P).
    assert (Q : 0 < length Ps) by (destruct Ps; [congruence|simpl; lia]). specialize (P Q).
    destruct (eqb (ofnat (length Ps) : F64 m) zero) eqn:E; auto.
    rewrite (o_eq_lt_r _ (F64_ord m) _ _ zero E), (o_irr _ (F64_ord m)) in P. discriminate.
  - apply Forall_forall. intros P HP. apply In_nth_error in HP. destruct HP as [k Hk].
    destruct (K k P Hk) as (p & idx & Ep & Ei). destruct (HM k p idx P Ep Ei Hk) as (M' & _ & _ & R). auto.
  - intros k P Hk. destruct (K k P Hk) as (p & idx & Ep & Ei). destruct (HM k p idx P Ep Ei Hk) as (M' & C & E & _).
    rewrite (member_columns b fs M k p idx M' HF Ep Ei C). auto.
Qed.
Print Assumptions C13_dense.

(** A feature number beyond the width raises IndexError (first member). *)
Theorem C13_missing_column : forall (m : libm) (L : Type) (b : bagging (F64 m) L) (M : list (list (F64 m))) row rest p ps f fs idx,
  M = row :: rest -> b_members b = p :: ps -> b_feats b = Some (map Z.of_nat (f :: idx) :: fs) -> length row <= f ->
  bagging_predict_proba b (ll M) = Err IndexError.
Proof.
  intros m L b M row rest p ps f fs idx -> HP HF Hf. unfold bagging_predict_proba, member_proba, get_feats.
  rewrite HP, HF. cbn. rewrite lget_nat, lnth_ge by auto. reflexivity.
Qed.
Print Assumptions C13_missing_column.

(** Sparse input: a cell that is not stored (a zero) raises KeyError instead of
    being passed as 0, whatever the member. *)
Theorem C13_sparse_refuted : forall (m : libm) (p : proba_fun (F64 m)) S, let b : bagging (F64 m) nat :=
    {| b_members := [p]; b_feats := Some [[0%Z]]; b_classes := [0; 1] |} in
  tosparse (A:=F64 m) (ll [[zero]]) = Ok S ->
  bagging_predict_proba b S = Err KeyError /\
  (forall P, p (ll [[zero]]) = Ok P -> member_proba b (ll [[zero]]) 0 = Ok P).
Proof.
  intros m p S b H. split.
  - vm_compute in H. inversion H; subst. reflexivity.
  - intros P HP. unfold member_proba, b. cbn. exact HP.
Qed.
Print Assumptions C13_sparse_refuted.

(** Sparse input gives the dense result when every selected cell is stored
    (missing: unstored zero cells, refuted above). *)
Theorem C13_sparse_partial : forall (m : libm) (L : Type) (b : bagging (F64 m) L) fs rows (M : list (list (F64 m))) sz dt,
  b_feats b = Some fs ->
  Forall2 (fun d row => stores d row /\ forall idx j, In idx fs -> In j idx -> In j (map fst d)) rows M ->
  bagging_predict_proba b (Sp rows sz dt) = bagging_predict_proba b (ll M).
Proof.
  intros m L b fs rows M sz dt HF HS.
  assert (E : forall k, member_proba b (Sp rows sz dt) k = member_proba b (ll M) k).
  { intro k. unfold member_proba, get_feats. rewrite HF. destruct (lnth (b_members b) k); cbn [bind]; auto.
    destruct (lnth fs k) as [idx|] eqn:Ei; cbn [bind]; auto. apply lnth_ok in Ei. apply nth_error_In in Ei.
    unfold feat_slice, ll. cbn [items bind]. rewrite !mapM_map.
    assert (G : mapM (fun d => mapM (item_get (Di d)) idx) rows = mapM (fun r => mapM (item_get (Ls r)) idx) M).
    { induction HS as [|d row rows M [S K] HS IH]; cbn [mapM]; auto. rewrite IH.
      replace (mapM (item_get (Di d)) idx) with (mapM (item_get (Ls row)) idx); auto.
      apply mapM_ext. intros j Hj. specialize (K idx j Ei Hj).
      destruct S as (ND & HK & HV). pose proof (HK _ K) as B.
      destruct (Z_of_nat_complete j ltac:(lia)) as [n ->].
      assert (Hn : n < length row) by lia. destruct (lnth_lt row n Hn) as (v & E1 & E2).
      cbn [item_get]. rewrite lget_nat, E1. unfold dget.
      destruct (HV _ _ E2) as [(w & Hin & ->)|[C _]]; [|contradiction].
      rewrite (dlookup_nodup Z.eqb Z.eqb_eq (Z.of_nat n) v d ND Hin). auto. }
    rewrite G. auto. }
  unfold bagging_predict_proba. rewrite E. destruct (member_proba b (ll M) 0); cbn [bind]; auto.
  erewrite foldM_ext; [reflexivity|]. intros acc k _. rewrite E. auto.
Qed.
Print Assumptions C13_sparse_partial.

Example C13_case : forall m, let b : bagging (F64 m) nat :=
    {| b_members := [fun X => match X with Arr [Ls [a; b]] => Ok [[a; b]] | _ => Err TypeError end];
       b_feats := Some [[1%Z; 0%Z]]; b_classes := [0; 1] |} in
  exists P, bagging_predict_proba b (ll [[zero; one]]) = Ok P /\ mean_of [[[one; zero]]] P 1 2.
Proof.
  intros m b. apply (C13_dense m nat b [[1; 0]] [[zero; one]] [[[one; zero]]] 1 2); auto; [discriminate|simpl; lia|].
  intros [|k] p idx P H1 H2 H3; [|destruct k; discriminate]. inversion H1; inversion H2; inversion H3; subst.
  exists [[one; zero]]. repeat split; repeat constructor.
Qed.
