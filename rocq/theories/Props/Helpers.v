(** C85: the matrix helpers of pure_sklearn/base.py. *)
From Coq Require Import Lia.
From Flocq Require Import Core BinarySingleNaN.
From Verif Require Import Model.Py Model.Arith Model.F64 Model.Utils Model.Base.
From Verif Require Import Spec.Matrix Proofs.Lib Proofs.Arrays Proofs.Arrays2 Proofs.Ensemble.

Section Any.
Context {A : arith}.

(** C85.  apply_2d applies the function to every cell; it succeeds exactly when
    the function succeeds on every cell. *)
Theorem C85_apply : forall B (M : list (list A)) r c (f : A -> res B), rect M r c ->
  forall P, apply_2d (ll M) f = Ok P <->
    rect P r c /\ forall i j x, cell M i j = Some x -> exists y, f x = Ok y /\ cell P i j = Some y.
Proof.
  intros B M r c f HM P. unfold apply_2d, ll. cbn [issparse items bind]. rewrite mapM_map. cbn [iter_item bind].
  rewrite (mapM_Forall2 (mapM f) M P). destruct HM as [HL HW]. split.
  - intro H. split; [split|].
    + rewrite <- HL. symmetry. apply (Forall2_len _ _ _ H).
    + clear HL. induction H as [|a b M P E H IH]; constructor; inversion HW; subst; auto. apply mapM_length in E. congruence.
    + intros i j x. unfold cell. clear HL HW. revert i. induction H as [|a b M P E H IH]; intros [|i]; cbn; try discriminate; [|apply IH].
      intro EX. apply (mapM_nth f a b j x E) in EX. destruct EX as (y & EY & EZ). eauto.
  - intros [[PL PW] H]. revert r HL P PL PW H. induction M as [|a M IH]; intros r HL P PL PW H.
    + cbn in HL. subst r. destruct P; [constructor|discriminate].
    + destruct P as [|b P]; [cbn in *; congruence|]. inversion HW; subst. inversion PW; subst. constructor.
      * apply mapM_Forall2. assert (Q : forall j x, nth_error a j = Some x -> exists y, f x = Ok y /\ nth_error b j = Some y) by (intros j x; apply (H 0 j x)).
        assert (EL : length a = length b) by congruence. clear - Q EL. revert b EL Q. induction a as [|x a IH]; intros [|y b] EL Q; try discriminate; constructor.
        -- destruct (Q 0 x eq_refl) as (y' & E & E'). cbn in E'. congruence.
        -- apply IH; [cbn in EL; lia|]. intros j x' E. apply (Q (S j) x' E).
      * apply (IH H3 (length M)); [reflexivity|cbn in PL; lia|assumption|]. intros i j x. apply (H (S i) j x).
Qed.

(** operate_2d combines two matrices of one shape cell by cell ... *)
Theorem C85_combine : forall (M N : list (list A)) r c f, rect M r c -> rect N r c -> 1 <= r ->
  exists P, operate_2d (ll M) (ll N) f = Ok P /\ rect P r c /\
    forall i j x y, cell M i j = Some x -> cell N i j = Some y -> cell P i j = Some (f x y).
Proof.
  intros M N r c f HM HN H1. exists (zip_with (zip_with f) M N). split; [apply operate_2d_ll with (r := r) (c := c); auto|].
  destruct HM as [ML MW], HN as [NL NW]. split; [split|].
  - rewrite zip_with_length. lia.
  - clear ML NL. revert N NW. induction M as [|a M IH]; intros [|b N] NW; cbn; constructor; inversion MW; inversion NW; subst; auto.
    rewrite zip_with_length. lia.
  - intros i j x y. unfold cell. rewrite zip_with_nth. destruct (nth_error M i) as [a|]; [|discriminate]. destruct (nth_error N i) as [b|]; [|discriminate].
    intros E1 E2. rewrite zip_with_nth, E1, E2. reflexivity.
Qed.
(** ... and raises ValueError on matrices of different shapes. *)
Theorem C85_combine_shapes : forall (M N : list (list A)) r c r' c' f, rect M r c -> rect N r' c' -> 1 <= r -> 1 <= r' ->
  (r <> r' \/ c <> c') -> operate_2d (ll M) (ll N) f = Err ValueError.
Proof.
  intros M N r c r' c' f HM HN H1 H2 D. unfold operate_2d. cbn [issparse ll orb]. fold (ll M). fold (ll N).
  rewrite (shape_ll M r c HM H1), (shape_ll N r' c' HN H2). cbn [bind]. unfold shp_eqb. cbn.
  destruct (Z.of_nat r =? Z.of_nat r')%Z eqn:E1; cbn; [|reflexivity].
  destruct (Z.of_nat c =? Z.of_nat c')%Z eqn:E2; cbn; [|reflexivity]. apply Z.eqb_eq in E1. apply Z.eqb_eq in E2. lia.
Qed.

(** apply_axis_2d gives the function's value on every row (axis=1) or every
    column (axis=0); any other axis is refused. *)
Theorem C85_rows : forall B (M : list (list A)) (f : list A -> res B) P,
  apply_axis_2d (ll M) f 1 = Ok P <-> Forall2 (fun row y => f row = Ok y) M P.
Proof.
  intros B M f P. unfold apply_axis_2d, ll. cbn. rewrite mapM_map. cbn [iter_item bind]. apply mapM_Forall2.
Qed.
Theorem C85_columns : forall B (M : list (list A)) r c (f : list A -> res B) P, rect M r c -> 1 <= r ->
  apply_axis_2d (ll M) f 0 = Ok P <->
    exists T, rect T c r /\ (forall i j, i < r -> j < c -> cell T j i = cell M i j) /\ Forall2 (fun col y => f col = Ok y) T P.
Proof.
  intros B M r c f P HM H1. unfold apply_axis_2d. cbn [issparse ll andb Z.eqb]. fold (ll M). rewrite transpose_ll. cbn [bind].
  destruct (zipstar_nth M r c HM H1) as [TR TC]. rewrite mapM_Forall2. split.
  - intro H. exists (zipstar M). auto.
  - intros (T & R & C & H). replace (zipstar M) with T; [exact H|]. apply (rect_ext _ _ c r); auto. intros j i Hj Hi. rewrite C, TC; auto.
Qed.
Theorem C85_axis_rejected : forall B (X : arr A) (f : list A -> res B) axis, axis <> 0%Z -> axis <> 1%Z ->
  apply_axis_2d X f axis = Err ValueError.
Proof.
  intros B X f axis H0 H1. unfold apply_axis_2d. apply Z.eqb_neq in H0. apply Z.eqb_neq in H1. rewrite H0, H1, Bool.andb_false_r. reflexivity.
Qed.

(** On a sparse_list: apply_2d, operate_2d, ravel and axis=0 raise ValueError;
    axis=1 gives the function's value on the stored values of every row. *)
Theorem C85_sparse : forall B rows sz dt (Y : arr A) (f : A -> res B) g (h : list A -> res B),
  let X := Sp rows sz dt in
  apply_2d X f = Err ValueError /\ operate_2d X Y g = Err ValueError /\
  operate_2d (ll []) X g = Err ValueError /\ ravel X = Err ValueError /\ apply_axis_2d X h 0 = Err ValueError /\
  forall P, apply_axis_2d X h 1 = Ok P <-> Forall2 (fun d y => h (map snd d) = Ok y) rows P.
Proof.
  intros B rows sz dt Y f g h X. repeat (split; [reflexivity|]). intro P. unfold X, apply_axis_2d. cbn. rewrite mapM_map. cbn. apply mapM_Forall2.
Qed.

(** apply_2d_sparse applies a function to the stored values: the result stores
    the matrix of the function's values, if the function keeps zeros.  Dense
    matrices are refused. *)
Theorem C85_apply_sparse : forall rows (M : list (list A)) r c dt (f : A -> A), rect M r c -> 1 <= r -> Forall2 stores rows M ->
  (forall x, is0 x -> is0 (f x)) ->
  exists rows', apply_2d_sparse (Sp rows (Some (Z.of_nat c)) dt) (fun x => Ok (f x)) = Ok (Sp rows' (Some (Z.of_nat c)) dt) /\
    Forall2 stores rows' (map (map f) M) /\ Forall2 (fun d d' => map fst d' = map fst d) rows rows'.
Proof.
  intros rows M r c dt f [HL HW] H1 HS H0.
  assert (ED : forall d : dict Z A, dmapM (fun _ v => Ok (f v)) d = Ok (map (fun kv => (fst kv, f (snd kv))) d)).
  { intro d. unfold dmapM. apply mapM_pure. intros [k v] _. reflexivity. }
  exists (map (map (fun kv => (fst kv, f (snd kv)))) rows). split; [|split].
  - unfold apply_2d_sparse. assert (EM : mapM (dmapM (fun (_ : Z) v => Ok (f v))) rows = Ok (map (map (fun kv => (fst kv, f (snd kv)))) rows)) by (apply mapM_pure; intros; apply ED).
    rewrite EM. cbn [bind].
    destruct rows as [|d rows]; [|reflexivity]. inversion HS; subst. cbn in H1. lia.
  - clear HL HW H1. induction HS as [|d row rows M (ND & K & C) HS IH]; cbn [map]; constructor; auto.
    assert (EF : map fst (map (fun kv : Z * A => (fst kv, f (snd kv))) d) = map fst d) by (rewrite map_map; reflexivity).
    unfold stores. rewrite EF, map_length. split; [exact ND|]. split; [exact K|]. intros j v. rewrite nth_error_map.
    destruct (nth_error row j) as [x|] eqn:E; [|discriminate]. cbn. intro EV. injection EV as <-.
    destruct (C j x E) as [(w & I1 & ->)|[N Z0]]; [left|right; split; auto].
    exists (f x). split; [|reflexivity]. apply in_map_iff. exists (Z.of_nat j, x). auto.
  - clear. induction rows as [|d rows IH]; cbn [map]; constructor; auto. rewrite map_map. reflexivity.
Qed.
Theorem C85_apply_sparse_rejected : forall (M : list (list A)) f, apply_2d_sparse (ll M) f = Err ValueError.
Proof. reflexivity. Qed.

(** ravel gives the entries of a matrix of one column, in order ... *)
Theorem C85_ravel_partial : forall (l : list A), l <> [] -> ravel (ll (map (fun x => [x]) l)) = Ok l.
Proof.
  intros l H. unfold ravel. cbn [issparse ll]. fold (ll (map (fun x => [x]) l)). rewrite transpose_ll. cbn [bind].
  assert (HR : rect (map (fun x => [x]) l) (length l) 1) by (split; [apply map_length|]; apply Forall_forall; intros x Hx; apply in_map_iff in Hx; destruct Hx as (y & <- & _); reflexivity).
  assert (H1 : 1 <= length l) by (destruct l; [congruence|cbn; lia]).
  destruct (zipstar_nth _ _ _ HR H1) as [TR TC].
  replace (zipstar (map (fun x => [x]) l)) with [l]; [reflexivity|]. apply (rect_ext _ _ 1 (length l)); auto.
  - split; [reflexivity|repeat constructor].
  - intros j i Hj Hi. rewrite (TC i j Hi Hj). assert (j = 0) by lia. subst j. unfold cell. cbn. rewrite nth_error_map. destruct (nth_error l i); reflexivity.
Qed.
(** ... but of a wider matrix only the first column, where numpy's ravel gives
    all entries. *)
Theorem C85_ravel_refuted : forall x y : A, ravel (ll [[x; y]]) = Ok [x].
Proof. reflexivity. Qed.

(** dot_2d: cell (i, j) is the sum of products of row i of the first matrix and
    row j of the second, from left to right. *)
Theorem C85_dot_2d : forall (M N : list (list A)), exists P, dot_2d (ll M) N = Ok P /\ rect P (length M) (length N) /\
  forall i j x y, nth_error M i = Some x -> nth_error N j = Some y -> cell P i j = Some (dotp x y).
Proof.
  intros M N. exists (map (fun x => map (dotp x) N) M). split; [|split; [split|]].
  - unfold dot_2d, ll. cbn [items bind]. rewrite mapM_map. apply mapM_pure. intros x _. apply dot_dense.
  - apply map_length.
  - apply Forall_forall. intros row H. apply in_map_iff in H. destruct H as (x & <- & _). apply map_length.
  - intros i j x y E1 E2. unfold cell. rewrite nth_error_map, E1. cbn. rewrite nth_error_map, E2. reflexivity.
Qed.
End Any.

(** accumu gives the running totals. *)
Theorem C85_accumu : forall l : list Z, length (accumu l) = length l /\
  forall i, i < length l -> nth_error (accumu l) i = Some (fold_right Z.add 0%Z (firstn (S i) l)).
Proof.
  assert (G : forall l t, length (accumu_from t l) = length l /\
    forall i, i < length l -> nth_error (accumu_from t l) i = Some (t + fold_right Z.add 0%Z (firstn (S i) l))%Z).
  { induction l as [|x l IH]; intro t; cbn [accumu_from length]; [split; [reflexivity|intros; lia]|].
    destruct (IH (t + x)%Z) as [E H]. split; [congruence|]. intros [|i] Hi.
    - cbn. f_equal. lia.
    - cbn [nth_error]. rewrite H by lia. cbn [firstn fold_right]. f_equal. lia. }
  intro l. destruct (G l 0%Z) as [E H]. split; [exact E|]. intros i Hi. unfold accumu. rewrite H by exact Hi. f_equal.
Qed.

Print Assumptions C85_apply.
Print Assumptions C85_combine.
Print Assumptions C85_combine_shapes.
Print Assumptions C85_rows.
Print Assumptions C85_columns.
Print Assumptions C85_axis_rejected.
Print Assumptions C85_sparse.
Print Assumptions C85_apply_sparse.
Print Assumptions C85_apply_sparse_rejected.
Print Assumptions C85_ravel_partial.
Print Assumptions C85_ravel_refuted.
Print Assumptions C85_dot_2d.
Print Assumptions C85_accumu.

(** Doubling and subtracting 2 x 3 matrices with NaN; running totals. *)
Example C85_ex : forall m : libm,
  let M : list (list (F64 m)) := [[one; zero; ofZ 2]; [nanv; one; ofZ 3]] in
  rect M 2 3 /\ operate_2d (ll M) (ll M) sub = Ok [[sub one one; sub zero zero; sub (ofZ 2) (ofZ 2)]; [sub nanv nanv; sub one one; sub (ofZ 3) (ofZ 3)]] /\
  rect [[one : F64 m]] 1 1 /\ operate_2d (ll M) (ll [[one]]) sub = Err ValueError /\
  apply_axis_2d (ll M) (fun col => Ok (length col)) 0 = Ok [2; 2; 2] /\
  accumu [2; 3; 4]%Z = [2; 5; 9]%Z.
Proof. intros m M. split; [split; [reflexivity|repeat constructor]|]. split; [reflexivity|]. split; [split; [reflexivity|repeat constructor]|]. repeat split. Qed.
Example C85_sparse_ex : forall m : libm,
  let M : list (list (F64 m)) := [[zero; one]] in let rows := [[(1%Z, one)]] in
  Forall2 stores rows M /\ (forall x : F64 m, is0 x -> is0 (opp x)) /\
  apply_2d_sparse (Sp rows (Some 2%Z) DFloat) (fun x => Ok (opp x)) = Ok (Sp [[(1%Z, opp one)]] (Some 2%Z) DFloat).
Proof.
  intros m M rows. split; [|split; [|reflexivity]].
  - constructor; [|constructor]. split; [|split].
    + constructor; [intros []|constructor].
    + intros k [<-|[]]. cbn. lia.
    + intros [|[|j]] v E; cbn in E; try discriminate; [injection E as <-; right; split; [intros [Q|[]]; discriminate|reflexivity]|injection E as <-; left; eexists; split; [left; reflexivity|reflexivity]|destruct j; discriminate].
  - intros [s|s| |s mm e B] H; [reflexivity| | |]; exfalso; vm_compute in H; try destruct s; discriminate.
Qed.
