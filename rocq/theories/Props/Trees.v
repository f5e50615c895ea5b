(** C09-C11: decision trees (pure_sklearn/tree/_classes.py). *)
From Coq Require Import Reals Lia Lra.
From Flocq Require Import Core BinarySingleNaN.
From Verif Require Import Model.Py Model.Arith Model.F64 Model.XR Model.Utils Model.Base Model.Tree.
From Verif Require Import Spec.Matrix Spec.Trees Spec.Reals.
From Verif Require Import Proofs.Lib Proofs.Laws Proofs.Unit Proofs.Arrays Proofs.RealLib Proofs.Argmax Proofs.Tree.

(** A tree with one split "column 0 <= 0" and leaves (2 of class 0) / (1 of
    class 0, 1 of class 1), used to show that hypotheses can be met. *)
Definition stump (m : libm) : tree (F64 m) nat :=
  {| t_left := [1; -1; -1]%Z; t_right := [2; -1; -1]%Z; t_feature := [0; -2; -2]%Z;
     t_thr := [zero; ofZ (-2); ofZ (-2)];
     t_value := [[ofZ 3; one]; [ofZ 2; zero]; [one; one]]; t_classes := [7; 9] |}.
Definition stump_spec (m : libm) : dtree (F64 m) := Node 0 zero (Leaf [ofZ 2; zero]) (Leaf [one; one]).

Lemma stump_encodes : forall m, encodes (stump m) 0 (stump_spec m).
Proof.
  intro m. eapply enc_node with (l := 1) (r := 2); try reflexivity; [discriminate| |];
    eapply enc_leaf; reflexivity.
Qed.

(** C09.  The arrays scikit-learn produces represent a binary tree. *)
Theorem C09_fitted : forall (A : arith) (L : Type) (t : tree A L), fitted t -> exists s, encodes t 0 s.
Proof. exact @fitted_encodes. Qed.
Print Assumptions C09_fitted.

(** The regressor returns, for every row, the value in the leaf the row falls
    into; it returns something exactly when every row reaches a leaf (no tested
    feature missing) holding a value. *)
Theorem C09_regressor : forall (A : arith) (L : Type) (t : tree A L) (s : dtree A) (M : list (list A)),
  encodes t 0 s -> M <> [] ->
  forall out, reg_predict t (ll M) = Ok out <->
    Forall2 (fun row y => exists v, fall row s = Some (y :: v)) M out.
Proof.
  intros A L t s M HE N out. rewrite (reg_predict_ok t (ll M) (map Ls M) s (inputs_ll M N) HE), Forall2_map_l.
  apply Forall2_iff. intros row y. rewrite fallx_dense. split.
  - intros (v & F & G). destruct v; inversion G; subst. eauto.
  - intros (v & F). exists (y :: v). auto.
Qed.
Print Assumptions C09_regressor.

(** A row in which a tested feature is missing raises IndexError. *)
Theorem C09_short_row : forall (A : arith) (L : Type) (t : tree A L) (s : dtree A) (M : list (list A)) row,
  encodes t 0 s -> In row M -> fall row s = None -> reg_predict t (ll M) = Err IndexError.
Proof.
  intros A L t s M row HE Hin F. assert (N : M <> []) by (destruct M; [destruct Hin|discriminate]).
  apply (short_row t (leaf_value t) (ll M) (map Ls M) s (inputs_ll M N) HE).
  exists (Ls row). split; [apply in_map; auto|]. rewrite fallx_dense; auto.
Qed.
Print Assumptions C09_short_row.

(** The descent always terminates on a fitted tree ... *)
Theorem C09_terminates : forall (A : arith) (L : Type) (t : tree A L) (s : dtree A) (x : item A),
  encodes t 0 s -> get_leaf_node t x <> Err Diverges.
Proof.
  intros A L t s x. apply get_leaf_total.
Qed.
Print Assumptions C09_terminates.

(** ... and for arbitrary arrays the model reports divergence only if no number
    of loop rounds would finish. *)
Theorem C09_divergence : forall (A : arith) (L : Type) (t : tree A L) (x : item A),
  get_leaf_node t x = Err Diverges -> forall rounds, descend t x rounds 0 = Err Diverges.
Proof. intros A L t x H. apply fuel_enough. exact H. Qed.
Print Assumptions C09_divergence.

(** A NaN cell is sent right, at every split. *)
Theorem C09_nan_right : forall (m : libm) (row : list (F64 m)) f h l r x,
  nth_error row f = Some x -> isnan x = true -> fall row (Node f h l r) = fall row r.
Proof.
  intros m row f h l r x Hx N. cbn [fall]. rewrite Hx.
  destruct (leb x h) eqn:E; auto. apply (leb_nan (F64_ord m)) in E. destruct E; congruence.
Qed.
Print Assumptions C09_nan_right.

Example C09_case : forall m, fitted (stump m) /\ encodes (stump m) 0 (stump_spec m) /\
  reg_predict (stump m) (ll [[zero]; [nanv]; [ninf]]) = Ok [ofZ 2; one; ofZ 2].
Proof.
  intro m. split; [|split; [apply stump_encodes|]].
  - unfold fitted. simpl. repeat split; try lia. intros nd H.
    destruct nd as [|[|[|nd]]]; [|left; auto|left; auto|lia]. right. exists 1, 2, 0. simpl. repeat split; auto; lia.
  - apply (C09_regressor (F64 m) nat (stump m) (stump_spec m)); [apply stump_encodes|discriminate|].
    repeat constructor; eexists; reflexivity.
Qed.

(** C10.  A matrix and any sparse_list storing it give the same results, or the
    same error, from every prediction method, when the matrix has a column for
    every feature the tree tests. *)
Theorem C10_sparse_dense : forall (m : libm) (L : Type) (t : tree (F64 m) L) (s : dtree (F64 m)) M rows r c sz dt,
  encodes t 0 s -> features_below c s -> rect M r c -> 1 <= r -> Forall2 stores rows M ->
  tree_predict t (Sp rows sz dt) = tree_predict t (ll M) /\
  tree_predict_proba t (Sp rows sz dt) = tree_predict_proba t (ll M) /\
  tree_predict_log_proba t (Sp rows sz dt) = tree_predict_log_proba t (ll M) /\
  reg_predict t (Sp rows sz dt) = reg_predict t (ll M).
Proof.
  intros m L t s M rows r c sz dt HE HF [HL HR] H1 HS.
  assert (E : leaves t (Sp rows sz dt) = leaves t (ll M)).
  { eapply (leaves_sparse t (F64_ord m)); eauto.
    - destruct M; [simpl in HL; lia|discriminate].
    - eapply Forall_impl; [|exact HR]. simpl. intros row ->. auto. }
  unfold tree_predict_log_proba, tree_predict_proba, tree_predict, reg_predict. rewrite E. auto.
Qed.
Print Assumptions C10_sparse_dense.

(** In particular for tosparse. *)
Theorem C10_tosparse : forall (m : libm) (L : Type) (t : tree (F64 m) L) (s : dtree (F64 m)) (M : list (list (F64 m))) r c,
  encodes t 0 s -> features_below c s -> rect M r c -> 1 <= r -> 1 <= c ->
  exists S, tosparse (ll M) = Ok S /\
    tree_predict t S = tree_predict t (ll M) /\ tree_predict_proba t S = tree_predict_proba t (ll M) /\
    reg_predict t S = reg_predict t (ll M).
Proof.
  intros m L t s M r c HE HF HR H1 Hc. eexists. split; [apply tosparse_ok with (r := r); eauto|].
  assert (HS : Forall2 stores (map sprow M) M).
  { apply Forall2_map_l. clear. induction M; constructor; auto. apply sprow_stores. }
  destruct (C10_sparse_dense m L t s M (map sprow M) r c (Some (Z.of_nat c)) DFloat HE HF HR H1 HS) as (E1 & E2 & _ & E3).
  auto.
Qed.
Print Assumptions C10_tosparse.

Example C10_case : forall m, let M := [[zero]; [(nanv : F64 m)]] in
  encodes (stump m) 0 (stump_spec m) /\ features_below 1 (stump_spec m) /\ rect M 2 1 /\
  Forall2 stores [[]; [(0%Z, nanv)]] M.
Proof.
  intros m M. split; [apply stump_encodes|]. split; [simpl; auto|]. split; [repeat constructor|].
  constructor; [exact (proj1 (sprow_stores (A:=F64 m) [zero]))|]. constructor; [exact (proj1 (sprow_stores (A:=F64 m) [nanv]))|constructor].
Qed.

(** C11.  predict returns the label at the first largest count of the leaf. *)
Theorem C11_predict : forall (m : libm) (L : Type) (t : tree (F64 m) L) (s : dtree (F64 m)) (M : list (list (F64 m))),
  encodes t 0 s -> M <> [] -> all_leaves (Forall (fun n => isnan n = false)) s ->
  forall out, tree_predict t (ll M) = Ok out <->
    Forall2 (fun row y => exists counts i, fall row s = Some counts /\ first_max counts i /\
                          nth_error (t_classes t) i = Some y) M out.
Proof.
  intros m L t s M HE N HN out.
  rewrite (tree_predict_ok t (ll M) (map Ls M) s (inputs_ll M N) HE), Forall2_map_l. apply Forall2_iff.
  intros row y. rewrite fallx_dense.
  split; intros (v & i & F & G & H); exists v, i; repeat split; auto;
    apply (argmax_first_max (F64_ord m)); auto; apply (fall_leaf _ _ _ _ HN F).
Qed.
Print Assumptions C11_predict.

(** predict_proba divides the counts of the leaf by their sum. *)
Theorem C11_proba : forall (A : arith) (L : Type) (t : tree A L) (s : dtree A) (M : list (list A)),
  encodes t 0 s -> M <> [] ->
  forall out, tree_predict_proba t (ll M) = Ok out <->
    Forall2 (fun row p => exists counts, fall row s = Some counts /\
               Forall2 (fun n q => div n (fold_left add counts zero) = Ok q) counts p) M out.
Proof.
  intros A L t s M HE N out.
  rewrite (tree_proba_ok t (ll M) (map Ls M) s (inputs_ll M N) HE), Forall2_map_l. apply Forall2_iff.
  intros row y. rewrite fallx_dense. split; intros (v & F & G); exists v; split; auto; apply mapM_Forall2; exact G.
Qed.
Print Assumptions C11_proba.

(** With non-negative counts of finite non-zero sum, predict_proba succeeds and
    every probability is in [0,1]. *)
Theorem C11_proba_unit : forall (m : libm) (L : Type) (t : tree (F64 m) L) (s : dtree (F64 m)) (M : list (list (F64 m))) r c,
  encodes t 0 s -> rect M r c -> 1 <= r -> features_below c s ->
  all_leaves (fun v : list (F64 m) => Forall (fun n => leb zero n = true) v /\
                       is_finite (fold_left f_add v (zero : F64 m)) = true /\
                       eqb (fold_left f_add v (zero : F64 m) : F64 m) zero = false) s ->
  exists P, tree_predict_proba t (ll M) = Ok P /\
    Forall2 (fun row p => exists v, fall row s = Some v /\ length p = length v) M P /\
    Forall (Forall (fun q => leb zero q = true /\ leb q one = true)) P.
Proof.
  intros m L t s M r c HE [HL HR] H1 HF HA. apply (tree_proba_unit (F64_unit m)); auto.
  - destruct M; [simpl in HL; lia|discriminate].
  - eapply Forall_impl; [|exact HR]. intros row E. rewrite E. auto.
  - clear - HA. induction s as [v|f h l IHl r IHr].
    + destruct HA as (H0 & H1 & H2). repeat split; auto. apply (proj2 (f_finite_iff _)). exact H1.
    + destruct HA. split; auto.
Qed.
Print Assumptions C11_proba_unit.

(** In exact arithmetic the row is the counts divided by their sum, a
    probability distribution. *)
Theorem C11_proba_sum : forall (L : Type) (t : tree XR L) (s : dtree XR) (M : list (list XR)) out,
  encodes t 0 s -> M <> [] ->
  all_leaves (fun v => exists n : list R, v = fins n /\ Forall (fun x => 0 <= x)%R n /\ (0 < Rsum n)%R) s ->
  tree_predict_proba t (ll M) = Ok out ->
  Forall2 (fun row p => exists n q, fall row s = Some (fins n) /\ p = fins q /\
             q = map (fun x => x / Rsum n)%R n /\ distribution q) M out.
Proof.
  intros L t s M out HE N HA H.
  apply (tree_proba_ok t (ll M) (map Ls M) s (inputs_ll M N) HE) in H. apply Forall2_map_l in H.
  eapply Forall2_imp; [|exact H]. intros row p (v & F & E). rewrite fallx_dense in F.
  destruct (fall_leaf _ _ _ _ HA F) as (n & -> & P0 & P1). exists n, (map (fun x => x / Rsum n)%R n).
  split; auto. split; [|split; auto].
  - rewrite psum_fins in E. unfold fins in E at 1. rewrite mapM_map in E.
    rewrite (mapM_pure _ (fun x => XFin (x / Rsum n) : XR)) in E.
    + unfold fins. rewrite map_map. congruence.
    + intros x _. apply x_div_fin. lra.
  - apply normalise_dist; auto. intros ->. simpl in P1. lra.
Qed.
Print Assumptions C11_proba_sum.

(** predict_log_proba is safe_log of each probability. *)
Theorem C11_log_proba : forall (m : libm) (L : Type) (t : tree (F64 m) L) X (P : list (list (F64 m))),
  tree_predict_proba t X = Ok P ->
  exists Q, tree_predict_log_proba t X = Ok Q /\ Forall2 (Forall2 (fun p q => safe_log p = Ok q)) P Q.
Proof.
  intros m L t X P H. unfold tree_predict_log_proba. rewrite H. cbn [bind].
  destruct (mapM_total (mapM (safe_log (A:=F64 m))) P) as [Q E].
  - intros row _. apply mapM_total. intros x _. destruct x as [[]|[]| |[] ? ? ?]; eexists; reflexivity.
  - exists Q. split; auto. apply mapM_Forall2 in E. eapply Forall2_imp; [|exact E].
    intros p q Hq. apply mapM_Forall2. exact Hq.
Qed.
Print Assumptions C11_log_proba.

Example C11_case : forall m,
  encodes (stump m) 0 (stump_spec m) /\ all_leaves (Forall (fun n => isnan n = false)) (stump_spec m) /\
  tree_predict (stump m) (ll [[zero]; [nanv]]) = Ok [7; 7] /\
  all_leaves (fun v : list (F64 m) => Forall (fun n => leb zero n = true) v /\
                       is_finite (fold_left f_add v (zero : F64 m)) = true /\
                       eqb (fold_left f_add v (zero : F64 m) : F64 m) zero = false) (stump_spec m).
Proof.
  intro m. split; [apply stump_encodes|].
  assert (NN : all_leaves (Forall (fun n => isnan n = false)) (stump_spec m)) by (repeat constructor).
  split; [exact NN|]. split.
  - apply (C11_predict m nat (stump m) (stump_spec m)); [apply stump_encodes|discriminate|exact NN|].
    constructor; [|constructor; [|constructor]].
    + exists [ofZ 2; zero], 0. split; [reflexivity|]. split; [|reflexivity].
      apply (argmax_first_max (F64_ord m)); [repeat constructor|reflexivity].
    + exists [one; one], 0. split; [reflexivity|]. split; [|reflexivity].
      apply (argmax_first_max (F64_ord m)); [repeat constructor|reflexivity].
  - repeat constructor.
Qed.
