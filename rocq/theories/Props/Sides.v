(** C89: tree models only see on which side of their thresholds a cell lies. *)
From Coq Require Import String Lia.
From Flocq Require Import IEEE754.BinarySingleNaN.
From Verif Require Import Model.Py Model.Arith Model.F64 Model.Utils Model.Base Model.Text Model.Tree
  Model.Ensemble Model.Linear Model.Dummy Model.Pipeline Model.Est.
From Verif Require Import Spec.Trees Spec.Unused Spec.Sides Proofs.Lib Proofs.Laws Proofs.Sides Props.Unused.
Local Open Scope nat_scope.

(** C89.  Any converted tree, forest, bagging ensemble, gradient boosting or
    XGBoost model, nested in any way: on two tables whose cells lie on the same
    side ([x <= h]) of every threshold the model compares their column with,
    [predict], [predict_proba] and [predict_log_proba] answer the same, bit for
    bit, or raise the same exception. *)
Theorem C89_sides : forall (A : arith) (L V : Type) (veq : V -> V -> bool) (vnum : A -> V) (U : textlib)
  (e : est A L V) (c : nat) (M M' : list (list A)),
  tree_model e -> trees_fitted e -> same_sides (tests e) c M M' -> same_answers (obj_of veq vnum U e) M M'.
Proof. intros A L V veq vnum U e c M M' T F H. exact (obj_sides veq vnum U e F T c M M' H). Qed.
Print Assumptions C89_sides.

(** In doubles: cells that compare equal (0.0 and -0.0), or that are both NaN,
    are interchangeable. *)
Theorem C89_equal : forall (m : libm) (L V : Type) (veq : V -> V -> bool) (vnum : F64 m -> V) (U : textlib)
  (e : est (F64 m) L V) (c : nat) (M M' : list (list (F64 m))),
  tree_model e -> trees_fitted e -> Forall (fun r => length r = c) M ->
  Forall2 (Forall2 (fun x x' : F64 m => eqb x x' = true \/ (isnan x = true /\ isnan x' = true))) M M' ->
  same_answers (obj_of veq vnum U e) M M'.
Proof.
  intros m L V veq vnum U e c M M' T F HC H. apply (C89_sides _ _ _ veq vnum U e c M M' T F).
  unfold same_sides. induction H as [|r r' M M' R H IH]; constructor; [|inversion HC; auto].
  apply Forall_cons_iff in HC. destruct HC as [<- _]. split; [reflexivity|]. split; [symmetry; eapply Forall2_len; exact R|].
  intros j h x x' _ E E'. clear - R E E'. revert j E E'.
  induction R as [|y y' r r' Q R IH]; intros [|j] E E'; try discriminate; [|exact (IH j E E')].
  injection E as <-. injection E' as <-. pose proof (F64_ord m) as O. rewrite !(o_leb _ O). destruct Q as [Q|[N N']].
  - rewrite (o_eq_lt_l _ O _ _ h Q). f_equal. destruct (eqb y h) eqn:Z; symmetry.
    + apply (o_eq_trans _ O _ y); [rewrite (o_sym _ O); exact Q|exact Z].
    + destruct (eqb y' h) eqn:Z'; [|reflexivity]. rewrite (o_eq_trans _ O _ _ _ Q Z') in Z. discriminate.
  - destruct y as [| | |]; try discriminate N. destruct y' as [| | |]; try discriminate N'. reflexivity.
Qed.
Print Assumptions C89_equal.

(** In doubles: with finite thresholds a NaN goes the way of +infinity, the
    right branch, at every node. *)
Theorem C89_nan : forall (m : libm) (L V : Type) (veq : V -> V -> bool) (vnum : F64 m -> V) (U : textlib)
  (e : est (F64 m) L V) (c : nat) (M M' : list (list (F64 m))),
  tree_model e -> trees_fitted e -> (forall j (h : F64 m), tests e j h -> is_finite h = true) ->
  Forall (fun r => length r = c) M ->
  Forall2 (Forall2 (fun x x' : F64 m => x' = if isnan x then pinf else x)) M M' ->
  same_answers (obj_of veq vnum U e) M M'.
Proof.
  intros m L V veq vnum U e c M M' T F HF HC H. apply (C89_sides _ _ _ veq vnum U e c M M' T F).
  unfold same_sides. induction H as [|r r' M M' R H IH]; constructor; [|inversion HC; auto].
  apply Forall_cons_iff in HC. destruct HC as [<- _]. split; [reflexivity|]. split; [symmetry; eapply Forall2_len; exact R|].
  intros j h x x' Ht E E'. apply HF in Ht. clear - R E E' Ht. revert j E E'.
  induction R as [|y y' r r' Q R IH]; intros [|j] E E'; try discriminate; [|exact (IH j E E')].
  injection E as <-. injection E' as <-. rewrite Q. destruct y as [| | |]; try reflexivity.
  destruct h as [| | |]; try discriminate Ht; reflexivity.
Qed.
Print Assumptions C89_nan.

(** The forest of C87 (thresholds 0 on columns 0 and 2): 3 becomes 1, NaN
    becomes infinity, -1 becomes -0.0, and column 1 changes freely. *)
Lemma forest3_tests : forall m j h, tests (forest3 m) j h -> (j = 0 \/ j = 2) /\ h = zero.
Proof.
  assert (S : forall m j h, tree_tests (split0 m) j h -> j = 0 /\ h = zero).
  { intros m j h (nd & l & r & E1 & E2 & N & E3 & E4). destruct nd as [|[|[|nd]]]; cbn in E1, E2;
      [|congruence|congruence|destruct nd; discriminate].
    injection E3 as E3. injection E4 as <-. destruct j; [auto|discriminate]. }
  intros m j h [H|[[(k & E & H)|[]]|[]]]; apply S in H; destruct H as [-> ->]; [auto|]. cbn in E. injection E as E. split; [|reflexivity]. lia.
Qed.
Example C89_ex : forall m (U : textlib), exists g,
  let M : list (list (F64 m)) := [[ofZ 3; one; nanv]; [ofZ (-1); zero; ofZ (-5)]] in
  let M' : list (list (F64 m)) := [[one; nanv; pinf]; [opp zero; pinf; ofZ (-7)]] in
  same_sides (tests (forest3 m)) 3 M M' /\ tree_model (forest3 m) /\ trees_fitted (forest3 m) /\
  (forall j (h : F64 m), tests (forest3 m) j h -> is_finite h = true) /\
  o_predict (obj_of Nat.eqb (fun _ => 0) U (forest3 m)) = Some g /\
  fst (g (DNum (ll M))) = fst (g (DNum (ll M'))) /\ fst (g (DNum (ll M))) = Ok (PLab [9; 7]).
Proof.
  intros m U. eexists. intros M M'.
  assert (H : same_sides (tests (forest3 m)) 3 M M').
  { constructor; [|constructor; [|constructor]]; (split; [reflexivity|]; split; [reflexivity|];
    intros j h x x' Hj; apply forest3_tests in Hj; destruct Hj as [[->| ->] ->]; intros E E'; injection E as <-; injection E' as <-; vm_compute; reflexivity). }
  assert (F : trees_fitted (forest3 m)).
  { assert (Q : Forall (Forall (fun f => 0 <= f)%Z) [[2%Z]]) by (repeat constructor; lia).
    pose proof (split0_fitted m). cbn [forest3 trees_fitted]. tauto. }
  assert (T : tree_model (forest3 m)) by (cbn; tauto).
  split; [exact H|]. split; [exact T|]. split; [exact F|]. split.
  { intros j h Ht. apply forest3_tests in Ht. destruct Ht as [_ ->]. reflexivity. }
  split; [reflexivity|]. split.
  - destruct (C89_sides (F64 m) nat nat Nat.eqb (fun _ => 0) U (forest3 m) 3 M M' T F H) as (P & _). exact (P _ eq_refl).
  - apply labelled_ok. vm_compute. reflexivity.
Qed.
Example C89_equal_ex : forall m,
  Forall2 (Forall2 (fun x x' : F64 m => eqb x x' = true \/ (isnan x = true /\ isnan x' = true)))
    [[zero; one; nanv]] [[opp zero; one; nanv]].
Proof.
  intro m. constructor; [|constructor]. constructor; [left; vm_compute; reflexivity|]. constructor; [left; vm_compute; reflexivity|].
  constructor; [right; split; reflexivity|constructor].
Qed.
