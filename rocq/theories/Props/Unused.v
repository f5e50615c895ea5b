(** C87: columns a model does not use do not matter. *)
From Coq Require Import String Lia.
From Flocq Require Import IEEE754.BinarySingleNaN.
From Verif Require Import Model.Py Model.Arith Model.F64 Model.Utils Model.Base Model.Text Model.Tree
  Model.Ensemble Model.Linear Model.Dummy Model.Pipeline Model.Est.
From Verif Require Import Spec.Trees Spec.Unused Proofs.Lib Proofs.Laws Proofs.Unused.
Local Open Scope nat_scope.

(** C87.  Any converted tree, forest, bagging ensemble (with its column
    subsets), gradient boosting or XGBoost model, nested in any way: on two
    tables that hold the same in the columns tested by some tree of the model,
    and anything (NaN and infinities included) in the others, [predict],
    [predict_proba] and [predict_log_proba] answer the same, bit for bit, or
    raise the same exception. *)
Theorem C87_trees : forall (A : arith) (L V : Type) (veq : V -> V -> bool) (vnum : A -> V) (U : textlib)
  (e : est A L V) (c : nat) (M M' : list (list A)),
  trees_fitted e -> agree_on (uses e) c M M' -> same_answers (obj_of veq vnum U e) M M'.
Proof. intros A L V veq vnum U e c M M' F H. exact (obj_agree veq vnum U e F c M M' H). Qed.
Print Assumptions C87_trees.

(** Linear models in doubles: columns whose coefficients are all 0 do not
    matter either, as long as the cells are finite. *)
Theorem C87_linear : forall (m : libm) (L V : Type) (veq : V -> V -> bool) (vnum : F64 m -> V) (U : textlib)
  (kd : lkind) (k : linear (F64 m) L) (c : nat) (M M' : list (list (F64 m))),
  agree_on (linear_uses k) c M M' ->
  Forall (Forall (fun x : F64 m => is_finite x = true)) M -> Forall (Forall (fun x : F64 m => is_finite x = true)) M' ->
  same_answers (obj_of veq vnum U (ELinear kd k)) M M' /\
  decision_function k (ll M) = decision_function k (ll M').
Proof.
  intros m L V veq vnum U kd k c M M' H F F'.
  assert (Q : forall N : list (list (F64 m)), Forall (Forall (fun x : F64 m => is_finite x = true)) N -> Forall (Forall finite) N).
  { intros N HN. eapply Forall_impl; [|exact HN]. intros r. apply Forall_impl. intros x. apply f_finite_iff. }
  split; [apply (linear_agree veq vnum U (F64_ok m) kd k c M M' H)|apply (decision_agree veq vnum (F64_ok m) k c M M' H)]; auto.
Qed.
Print Assumptions C87_linear.

(** Finiteness is needed: an infinity in a column with coefficient 0 makes the
    score NaN and the answer the first class. *)
Definition half_plane (m : libm) : linear (F64 m) nat :=
  {| l_coef := [[one; zero]]; l_classes := [7; 9]; l_intercept := Some [zero]; l_multi := None; l_solver := None; l_loss := None |}.
Definition labelled {A : arith} (r : res (preds A nat)) (l : list nat) : bool :=
  match r with Ok (PLab k) => if list_eq_dec Nat.eq_dec k l then true else false | _ => false end.
Lemma labelled_ok : forall {A : arith} (r : res (preds A nat)) l, labelled r l = true -> r = Ok (PLab l).
Proof. intros A [[k|q|q]|x] l H; cbn in H; try discriminate. destruct (list_eq_dec Nat.eq_dec k l); [subst; reflexivity|discriminate]. Qed.
Theorem C87_infinite_refuted : forall (m : libm) (V : Type) (veq : V -> V -> bool) (vnum : F64 m -> V) (U : textlib),
  exists (k : linear (F64 m) nat) M M' g, agree_on (linear_uses k) 2 M M' /\
    o_predict (obj_of veq vnum U (ELinear KPlain k)) = Some g /\
    fst (g (DNum (ll M))) = Ok (PLab [9]) /\ fst (g (DNum (ll M'))) = Ok (PLab [7]).
Proof.
  intros m V veq vnum U. exists (half_plane m), [[one; zero]], [[one; pinf]]. eexists. split.
  - constructor; [|constructor]. split; [reflexivity|]. split; [reflexivity|]. intros j (w & v & [<-|[]] & E & N).
    destruct j as [|[|j]]; [reflexivity| |destruct j; discriminate]. injection E as <-. discriminate N.
  - split; [reflexivity|]. split; apply labelled_ok; vm_compute; reflexivity.
Qed.
Print Assumptions C87_infinite_refuted.

(** A forest of a tree testing column 0 and a bagging ensemble whose member
    sees only column 2 (as its column 0); column 1 is changed to NaN and
    infinity. *)
Definition split0 (m : libm) : tree (F64 m) nat :=
  {| t_left := [1; -1; -1]%Z; t_right := [2; -1; -1]%Z; t_feature := [0; -2; -2]%Z;
     t_thr := [zero; ofZ (-2); ofZ (-2)];
     Tree.t_value := [[ofZ 3; ofZ 2]; [ofZ 2; zero]; [one; ofZ 2]]; t_classes := [7; 9] |}.
Lemma split0_fitted : forall m, fitted (split0 m).
Proof.
  intro m. unfold fitted. cbn [split0 t_left t_right t_feature t_thr Tree.t_value length]. repeat (split; [auto with arith|]).
  intros [|[|[|nd]]] H.
  - right. exists 1, 2, 0. repeat split; auto with arith.
  - left. auto.
  - left. auto.
  - exfalso. do 3 apply le_S_n in H. inversion H.
Qed.
Definition forest3 (m : libm) : est (F64 m) nat nat :=
  EBagging [ETree (split0 m); EBagging [ETree (split0 m)] (Some [[2%Z]]) [7; 9]] None [7; 9].
Lemma split0_uses : forall m j, tree_uses (split0 m) j -> j = 0.
Proof.
  intros m j (nd & l & r & E1 & E2 & N & E3). destruct nd as [|[|[|nd]]]; cbn in E1, E2, E3.
  - injection E3 as E3. destruct j; [reflexivity|discriminate].
  - congruence.
  - congruence.
  - destruct nd; discriminate.
Qed.
Example C87_ex : forall m (U : textlib), exists g,
  let M : list (list (F64 m)) := [[ofZ 3; one; ofZ 3]; [ofZ (-1); zero; ofZ (-5)]] in
  let M' := [[ofZ 3; nanv; ofZ 3]; [ofZ (-1); pinf; ofZ (-5)]] in
  agree_on (uses (forest3 m)) 3 M M' /\ trees_fitted (forest3 m) /\
  o_predict (obj_of Nat.eqb (fun _ => 0) U (forest3 m)) = Some g /\
  fst (g (DNum (ll M))) = fst (g (DNum (ll M'))) /\ fst (g (DNum (ll M))) = Ok (PLab [9; 7]).
Proof.
  intros m U. eexists. intros M M'.
  assert (H : agree_on (uses (forest3 m)) 3 M M').
  { assert (N : forall j, uses (forest3 m) j -> j = 0 \/ j = 2).
    { intros j [H|[[(k & E & H)|[]]|[]]]; [left; apply (split0_uses m); exact H|]. right. apply split0_uses in H. subst k. cbn in E.
      injection E as E. lia. }
    constructor; [|constructor; [|constructor]]; (split; [reflexivity|]; split; [reflexivity|]; intros j Hj; apply N in Hj; destruct Hj as [->| ->]; reflexivity). }
  assert (F : trees_fitted (forest3 m)).
  { assert (Q : Forall (Forall (fun f => 0 <= f)%Z) [[2%Z]]) by (repeat constructor; lia).
    pose proof (split0_fitted m). cbn [forest3 trees_fitted]. tauto. }
  split; [exact H|]. split; [exact F|]. split; [reflexivity|]. split.
  - destruct (C87_trees (F64 m) nat nat Nat.eqb (fun _ => 0) U (forest3 m) 3 M M' F H) as (P & _). exact (P _ eq_refl).
  - apply labelled_ok. vm_compute. reflexivity.
Qed.
Example C87_linear_ex : forall m (U : textlib),
  let M : list (list (F64 m)) := [[ofZ 3; one]] in
  let M' : list (list (F64 m)) := [[ofZ 3; ofZ (-8)]] in
  agree_on (linear_uses (half_plane m)) 2 M M' /\
  linear_predict (half_plane m) (ll M) = Ok [9] /\ linear_predict (half_plane m) (ll M') = Ok [9].
Proof.
  intros m U M M'. split.
  - constructor; [|constructor]. split; [reflexivity|]. split; [reflexivity|]. intros j (w & v & [<-|[]] & E & N).
    destruct j as [|[|j]]; [reflexivity| |destruct j; discriminate]. injection E as <-. discriminate N.
  - split; vm_compute; reflexivity.
Qed.
