(** Lemmas about the Python fragment of Model/Py.v. *)
From Coq Require Export Lia ZifyBool.
From Coq Require FinFun.
From Verif Require Import Model.Py.

Section Res.
  Context {A B C : Type}.

  Lemma bind_ok : forall (m : res A) (k : A -> res B) b,
    bind m k = Ok b <-> exists a, m = Ok a /\ k a = Ok b.
  Proof.
    intros m k b; destruct m as [a|e]; simpl; split; intro H.
    - eauto.
    - destruct H as (a' & E & H); inversion E; subst; auto.
    - discriminate.
    - destruct H as (a' & E & H); discriminate.
  Qed.

  Lemma bind_err : forall (m : res A) (k : A -> res B) e,
    bind m k = Err e <-> m = Err e \/ exists a, m = Ok a /\ k a = Err e.
  Proof.
    intros m k e; destruct m as [a|e']; simpl; split; intro H.
    - right; eauto.
    - destruct H as [H | (a' & E & H)]; [discriminate | inversion E; subst; auto].
    - left; congruence.
    - destruct H as [H | (a' & E & H)]; [congruence | discriminate].
  Qed.

  Lemma bind_assoc : forall (m : res A) (f : A -> res B) (g : B -> res C),
    bind (bind m f) g = bind m (fun a => bind (f a) g).
  Proof. intros m f g; destruct m; reflexivity. Qed.

  Lemma bind_ext : forall (m : res A) (f g : A -> res B),
    (forall a, m = Ok a -> f a = g a) -> bind m f = bind m g.
  Proof. intros m f g H; destruct m; simpl; auto. Qed.

  Lemma bind_ret : forall (m : res A), bind m Ok = m.
  Proof. destruct m; reflexivity. Qed.
End Res.

Lemma guard_ok : forall b e u, guard b e = Ok u <-> b = true.
Proof. intros [] e []; simpl; split; congruence. Qed.
Lemma guard_err : forall b e e', guard b e = Err e' <-> b = false /\ e = e'.
Proof. intros [] e e'; simpl; split; [discriminate | intros []; discriminate | split; congruence | intros []; congruence]. Qed.

(** Destruct a hypothesis [bind m k = Ok b]. *)
Ltac inv_bind H :=
  let a := fresh "a" in let E := fresh "E" in
  apply bind_ok in H; destruct H as (a & E & H).

Lemma Forall2_len : forall {A B} (R : A -> B -> Prop) l m, Forall2 R l m -> length l = length m.
Proof. intros A B R l m H; induction H; simpl; auto. Qed.

Section MapM.
  Context {A B C : Type}.

  Lemma mapM_Forall2 : forall (f : A -> res B) l r,
    mapM f l = Ok r <-> Forall2 (fun x y => f x = Ok y) l r.
  Proof.
    intros f l; induction l as [|x t IH]; intros r; simpl.
    - split; intro H; inversion H; auto.
    - split; intro H.
      + destruct (f x) as [y|] eqn:E; simpl in H; [|discriminate].
        destruct (mapM f t) as [ys|] eqn:E2; simpl in H; [|discriminate].
        inversion H; subst; constructor; auto. apply IH; auto.
      + inversion H as [|x' y l' ys E H2]; subst. rewrite E; simpl.
        apply IH in H2. rewrite H2; reflexivity.
  Qed.

  Lemma mapM_length : forall (f : A -> res B) l r, mapM f l = Ok r -> length r = length l.
  Proof. intros f l r H; apply mapM_Forall2 in H; symmetry; eapply Forall2_len; eauto. Qed.

  Lemma mapM_ext : forall (f g : A -> res B) l,
    (forall x, In x l -> f x = g x) -> mapM f l = mapM g l.
  Proof.
    intros f g l; induction l as [|x t IH]; intro H; simpl; auto.
    rewrite H by (left; auto). destruct (g x); simpl; auto.
    rewrite IH; auto. intros; apply H; right; auto.
  Qed.

  Lemma mapM_pure : forall (f : A -> res B) (g : A -> B) l,
    (forall x, In x l -> f x = Ok (g x)) -> mapM f l = Ok (map g l).
  Proof.
    intros f g l; induction l as [|x t IH]; intro H; simpl; auto.
    rewrite H by (left; auto); simpl. rewrite IH; auto. intros; apply H; right; auto.
  Qed.

  Lemma mapM_Ok : forall (g : A -> B) l, mapM (fun x => Ok (g x)) l = Ok (map g l).
  Proof. intros; apply mapM_pure; auto. Qed.

  Lemma mapM_map : forall (g : A -> B) (f : B -> res C) l,
    mapM f (map g l) = mapM (fun x => f (g x)) l.
  Proof. intros g f l; induction l as [|x t IH]; simpl; auto. rewrite IH; auto. Qed.

  Lemma mapM_app : forall (f : A -> res B) l1 l2,
    mapM f (l1 ++ l2) = (a <- mapM f l1 ;; b <- mapM f l2 ;; Ok (a ++ b)).
  Proof.
    intros f l1 l2; induction l1 as [|x t IH]; simpl.
    - destruct (mapM f l2); auto.
    - destruct (f x); simpl; auto. rewrite IH.
      destruct (mapM f t); simpl; auto. destruct (mapM f l2); auto.
  Qed.

  Lemma mapM_err : forall (f : A -> res B) l e,
    mapM f l = Err e <->
    exists l1 x l2, l = l1 ++ x :: l2 /\ (forall y, In y l1 -> exists z, f y = Ok z) /\ f x = Err e.
  Proof.
    intros f l e; split.
    - induction l as [|x t IH]; simpl; intro H; [discriminate|].
      destruct (f x) as [y|e'] eqn:E; simpl in H.
      + destruct (mapM f t) as [ys|e'] eqn:E2; simpl in H; [discriminate|].
        destruct (IH H) as (l1 & x' & l2 & -> & Hl1 & Hx).
        exists (x :: l1), x', l2; repeat split; auto.
        intros z [<-|Hz]; eauto.
      + inversion H; subst. exists [], x, t; repeat split; auto. intros y [].
    - intros (l1 & x & l2 & -> & Hl1 & Hx).
      induction l1 as [|y l1 IH]; simpl.
      + rewrite Hx; reflexivity.
      + destruct (Hl1 y) as [z Hz]; [left; auto|]. rewrite Hz; simpl.
        rewrite IH; auto. intros; apply Hl1; right; auto.
  Qed.

  Lemma mapM_nth : forall (f : A -> res B) l r n x,
    mapM f l = Ok r -> nth_error l n = Some x ->
    exists y, nth_error r n = Some y /\ f x = Ok y.
  Proof.
    intros f l r n x H; apply mapM_Forall2 in H; revert n.
    induction H as [|x' y l r E H IH]; intros n Hn; destruct n; simpl in *; try discriminate; eauto.
    inversion Hn; subst; eauto.
  Qed.

  Lemma mapM_nth_inv : forall (f : A -> res B) l r n y,
    mapM f l = Ok r -> nth_error r n = Some y ->
    exists x, nth_error l n = Some x /\ f x = Ok y.
  Proof.
    intros f l r n y H; apply mapM_Forall2 in H; revert n.
    induction H as [|x' y' l r E H IH]; intros n Hn; destruct n; simpl in *; try discriminate; eauto.
    inversion Hn; subst; eauto.
  Qed.

  Lemma mapM_in : forall (f : A -> res B) l r y,
    mapM f l = Ok r -> In y r -> exists x, In x l /\ f x = Ok y.
  Proof.
    intros f l r y H Hy. apply In_nth_error in Hy; destruct Hy as [n Hn].
    destruct (mapM_nth_inv _ _ _ _ _ H Hn) as (x & Hx & E). eauto using nth_error_In.
  Qed.

  Lemma mapM_total : forall (f : A -> res B) l,
    (forall x, In x l -> exists y, f x = Ok y) -> exists r, mapM f l = Ok r.
  Proof.
    intros f l; induction l as [|x t IH]; intro H; simpl; eauto.
    destruct (H x) as [y E]; [left; auto|]. rewrite E; simpl.
    destruct IH as [r E2]; [intros; apply H; right; auto|]. rewrite E2; simpl; eauto.
  Qed.
End MapM.

Lemma mapM_mapM : forall {A B C} (f : A -> res B) (g : B -> res C) l r,
  mapM f l = Ok r -> mapM g r = mapM (fun x => y <- f x ;; g y) l.
Proof.
  intros A B C f g l r H; apply mapM_Forall2 in H.
  induction H as [|x y l r E H IH]; simpl; auto.
  rewrite E; simpl. rewrite IH; auto.
Qed.

(** Mapping over the indices of a list is mapping over the list. *)
Lemma mapM_seq_nth : forall {A B} (l : list A) (f : A -> res B) k,
  mapM (fun i => x <- lnth l (i - k) ;; f x) (seq k (length l)) = mapM f l.
Proof.
  intros A B l f. 
  assert (G : forall l' pre k, 
    mapM (fun i => x <- lnth (pre ++ l') (i - k) ;; f x) (seq (k + length pre) (length l')) = mapM f l').
  { induction l' as [|x t IH]; intros pre k; simpl; auto.
    unfold lnth at 1. replace (k + length pre - k) with (length pre) by lia.
    rewrite nth_error_app2 by lia. rewrite Nat.sub_diag; simpl.
    destruct (f x); simpl; auto.
    specialize (IH (pre ++ [x]) k). rewrite <- app_assoc in IH; simpl in IH.
    rewrite app_length in IH; simpl in IH.
    replace (k + (length pre + 1)) with (S (k + length pre)) in IH by lia.
    rewrite IH; auto. }
  intros k. specialize (G l [] k). simpl in G. rewrite Nat.add_0_r in G; auto.
Qed.

Lemma mapM_range_nth : forall {A B} (l : list A) (f : A -> res B),
  mapM (fun i => x <- lnth l i ;; f x) (range (length l)) = mapM f l.
Proof.
  intros A B l f. unfold range. rewrite <- (mapM_seq_nth l f 0).
  apply mapM_ext. intros i _. rewrite Nat.sub_0_r; auto.
Qed.

Lemma mapM_range_nth2 : forall {A B C} (l : list A) (m : list B) (f : A -> B -> res C),
  length l = length m ->
  mapM (fun i => x <- lnth l i ;; y <- lnth m i ;; f x y) (range (length l)) =
  mapM (fun p => f (fst p) (snd p)) (combine l m).
Proof.
  intros A B C l m f E.
  rewrite <- (mapM_range_nth (combine l m) (fun p => f (fst p) (snd p))).
  rewrite combine_length, <- E, Nat.min_id.
  apply mapM_ext. intros i Hi. apply in_seq in Hi. unfold lnth.
  destruct (nth_error l i) as [x|] eqn:E1; [|apply nth_error_None in E1; lia].
  destruct (nth_error m i) as [y|] eqn:E2; [|apply nth_error_None in E2; lia]. simpl.
  assert (nth_error (combine l m) i = Some (x, y)) as ->; simpl; auto.
  clear -E1 E2. revert m i E1 E2; induction l as [|a l IH]; intros [|b m] [|i] E1 E2; simpl in *; try discriminate.
  - congruence.
  - apply IH; auto.
Qed.

Section Lists.
  Context {A B C : Type}.

  Lemma lnth_ok : forall (l : list A) n x, lnth l n = Ok x <-> nth_error l n = Some x.
  Proof. intros; unfold lnth; destruct (nth_error l n); split; congruence. Qed.

  Lemma lnth_lt : forall (l : list A) n, n < length l -> exists x, lnth l n = Ok x /\ nth_error l n = Some x.
  Proof.
    intros l n H. destruct (nth_error l n) as [x|] eqn:E.
    - exists x; split; auto. apply lnth_ok; auto.
    - apply nth_error_None in E; lia.
  Qed.

  Lemma lnth_ge : forall (l : list A) n, length l <= n -> lnth l n = Err IndexError.
  Proof. intros l n H. unfold lnth. apply nth_error_None in H. rewrite H; auto. Qed.

  Lemma lget_nat : forall (l : list A) n, lget l (Z.of_nat n) = lnth l n.
  Proof.
    intros l n. unfold lget. destruct (Z.of_nat n <? 0)%Z eqn:E; [lia|].
    destruct ((0 <=? Z.of_nat n)%Z && (Z.of_nat n <? Z.of_nat (length l))%Z) eqn:E2.
    - rewrite Nat2Z.id; auto.
    - symmetry; apply lnth_ge. apply andb_false_iff in E2. lia.
  Qed.

  Lemma lget_neg1 : forall (l : list A) x, lget (l ++ [x]) (-1) = Ok x.
  Proof.
    intros l x. unfold lget. change (-1 <? 0)%Z with true. cbv iota. rewrite app_length. cbn [length].
    destruct ((0 <=? -1 + Z.of_nat (length l + 1))%Z && (-1 + Z.of_nat (length l + 1) <? Z.of_nat (length l + 1))%Z) eqn:E.
    - apply lnth_ok. replace (Z.to_nat (-1 + Z.of_nat (length l + 1))) with (length l) by lia.
      rewrite nth_error_app2, Nat.sub_diag by lia; reflexivity.
    - apply andb_false_iff in E; lia.
  Qed.

  Lemma zip_with_length : forall (f : A -> B -> C) l m,
    length (zip_with f l m) = Nat.min (length l) (length m).
  Proof. intros f l; induction l as [|x l IH]; intros [|y m]; simpl; auto. Qed.

  Lemma zip_with_nth : forall (f : A -> B -> C) l m n,
    nth_error (zip_with f l m) n =
    match nth_error l n, nth_error m n with Some x, Some y => Some (f x y) | _, _ => None end.
  Proof.
    intros f l; induction l as [|x l IH]; intros [|y m] [|n]; simpl; auto.
    - destruct (nth_error l n); auto.
  Qed.

  Lemma zip_with_combine : forall (f : A -> B -> C) l m,
    zip_with f l m = map (fun p => f (fst p) (snd p)) (combine l m).
  Proof. intros f l; induction l as [|x l IH]; intros [|y m]; simpl; auto. rewrite IH; auto. Qed.

  Lemma nth_error_combine : forall (l : list A) (m : list B) n,
    nth_error (combine l m) n =
    match nth_error l n, nth_error m n with Some x, Some y => Some (x, y) | _, _ => None end.
  Proof.
    intros l; induction l as [|x l IH]; intros [|y m] [|n]; simpl; auto.
    destruct (nth_error l n); auto.
  Qed.

  Lemma nth_error_map' : forall (f : A -> B) l n,
    nth_error (map f l) n = option_map f (nth_error l n).
  Proof. intros f l; induction l as [|x l IH]; intros [|n]; simpl; auto. Qed.

  Lemma nth_error_seq : forall k n i, nth_error (seq k n) i = if i <? n then Some (k + i) else None.
  Proof.
    intros k n; revert k; induction n as [|n IH]; intros k i; simpl.
    - destruct i; auto.
    - destruct i; simpl; [f_equal; lia|]. rewrite IH.
      destruct (Nat.ltb_spec i n); destruct (Nat.ltb_spec (S i) (S n)); try lia; f_equal; lia.
  Qed.

  Lemma list_eq_nth : forall (l m : list A), (forall n, nth_error l n = nth_error m n) -> l = m.
  Proof.
    intros l; induction l as [|x l IH]; intros [|y m] H; auto.
    - specialize (H 0); discriminate.
    - specialize (H 0); discriminate.
    - f_equal; [specialize (H 0); simpl in H; congruence|].
      apply IH; intro n; apply (H (S n)).
  Qed.
End Lists.

Section Zrange.
  Open Scope Z_scope.
  Lemma zrange_nat : forall n, zrange 0 (Z.of_nat n) = map Z.of_nat (seq 0 n).
  Proof.
    intros n. unfold zrange. rewrite Z.sub_0_r, Nat2Z.id. apply map_ext. intros; lia.
  Qed.
  Lemma zrange_length : forall a b, length (zrange a b) = Z.to_nat (b - a).
  Proof. intros; unfold zrange; rewrite map_length, seq_length; auto. Qed.
  Lemma in_zrange : forall a b x, In x (zrange a b) <-> a <= x < b.
  Proof.
    intros a b x. unfold zrange. rewrite in_map_iff. split.
    - intros (i & <- & Hi). apply in_seq in Hi. lia.
    - intros H. exists (Z.to_nat (x - a)). split; [lia|]. apply in_seq. lia.
  Qed.
  Lemma zrange_NoDup : forall a b, NoDup (zrange a b).
  Proof.
    intros a b. unfold zrange. apply FinFun.Injective_map_NoDup; [|apply seq_NoDup].
    intros i j H; lia.
  Qed.
  Lemma nth_error_zrange : forall a b i,
    nth_error (zrange a b) i = if (Z.of_nat i <? b - a) then Some (a + Z.of_nat i) else None.
  Proof.
    intros a b i. unfold zrange. rewrite nth_error_map', nth_error_seq. simpl.
    destruct (Nat.ltb_spec i (Z.to_nat (b - a))); destruct (Z.ltb_spec (Z.of_nat i) (b - a)); try lia; auto.
  Qed.
  Lemma zrange_empty : forall a b, b <= a -> zrange a b = [].
  Proof. intros a b H. unfold zrange. replace (Z.to_nat (b - a)) with O by lia. reflexivity. Qed.
  Lemma zrange_cons : forall a b, a < b -> zrange a b = a :: zrange (a + 1) b.
  Proof.
    intros a b H. apply list_eq_nth. intro n. rewrite nth_error_zrange. destruct n; simpl.
    - destruct (Z.ltb_spec 0 (b - a)); [f_equal; lia | lia].
    - rewrite nth_error_zrange.
      destruct (Z.ltb_spec (Z.pos (Pos.of_succ_nat n)) (b - a)); destruct (Z.ltb_spec (Z.of_nat n) (b - (a + 1))); try lia; f_equal; lia.
  Qed.
End Zrange.

(** Dictionaries with a correct key equality. *)
Section Dict.
  Context {K V : Type} (eq : K -> K -> bool).
  Hypothesis eq_ok : forall a b, eq a b = true <-> a = b.

  Lemma eq_refl_true : forall a, eq a a = true. Proof. intro; apply eq_ok; auto. Qed.
  Lemma eq_neq : forall a b, a <> b -> eq a b = false.
  Proof. intros a b H; destruct (eq a b) eqn:E; auto. apply eq_ok in E; congruence. Qed.
  Lemma eq_false : forall a b, eq a b = false -> a <> b.
  Proof. intros a b H ->. rewrite eq_refl_true in H; discriminate. Qed.

  Lemma dlookup_dset : forall k v (d : dict K V) k',
    dlookup eq k' (dset eq k v d) = if eq k' k then Some v else dlookup eq k' d.
  Proof.
    intros k v d k'; induction d as [|[k0 v0] d IH]; simpl; auto.
    destruct (eq k k0) eqn:E; simpl.
    - apply eq_ok in E; subst. destruct (eq k' k0); auto.
    - rewrite IH. destruct (eq k' k0) eqn:E2; auto.
      apply eq_ok in E2; subst. destruct (eq k0 k) eqn:E3; auto.
      apply eq_ok in E3; subst. rewrite eq_refl_true in E; discriminate.
  Qed.

  Lemma dlookup_in : forall k (d : dict K V) v, dlookup eq k d = Some v -> In (k, v) d.
  Proof.
    intros k d v; induction d as [|[k0 v0] d IH]; simpl; intro H; [discriminate|].
    destruct (eq k k0) eqn:E.
    - apply eq_ok in E; subst; left; congruence.
    - right; auto.
  Qed.

  Lemma dlookup_none : forall k (d : dict K V), dlookup eq k d = None <-> ~ In k (dkeys d).
  Proof.
    intros k d; induction d as [|[k0 v0] d IH]; simpl.
    - split; auto.
    - destruct (eq k k0) eqn:E.
      + apply eq_ok in E; subst. split; [discriminate | intros []; auto].
      + rewrite IH. apply eq_false in E. split; [intros H [H2|H2]; auto | intros H H2; auto].
  Qed.

  Lemma dlookup_nodup : forall k v (d : dict K V),
    NoDup (dkeys d) -> In (k, v) d -> dlookup eq k d = Some v.
  Proof.
    intros k v d; induction d as [|[k0 v0] d IH]; simpl; intros ND H; [contradiction|].
    inversion ND as [|k' l' Hn ND']; subst. destruct H as [H|H].
    - inversion H; subst. rewrite eq_refl_true; auto.
    - destruct (eq k k0) eqn:E.
      + apply eq_ok in E; subst. exfalso; apply Hn. apply in_map_iff. exists (k0, v); auto.
      + apply IH; auto.
  Qed.

  Lemma dset_fresh : forall k v (d : dict K V), ~ In k (dkeys d) -> dset eq k v d = d ++ [(k, v)].
  Proof.
    intros k v d; induction d as [|[k0 v0] d IH]; simpl; intro H; auto.
    rewrite eq_neq by (intro; apply H; auto). rewrite IH; auto.
  Qed.

  Lemma dkeys_dset : forall k v (d : dict K V),
    dkeys (dset eq k v d) = if dmem eq k d then dkeys d else dkeys d ++ [k].
  Proof.
    intros k v d; unfold dmem; induction d as [|[k0 v0] d IH]; simpl; auto.
    destruct (eq k k0) eqn:E; simpl; auto. rewrite IH. destruct (dlookup eq k d); auto.
  Qed.

  Lemma dmem_in : forall k (d : dict K V), dmem eq k d = true <-> In k (dkeys d).
  Proof.
    intros k d. unfold dmem. destruct (dlookup eq k d) eqn:E.
    - split; auto. intros _. apply dlookup_in in E. apply in_map_iff. exists (k, v); auto.
    - split; [discriminate|]. intro H. apply dlookup_none in E. contradiction.
  Qed.

  Lemma NoDup_app_single : forall {T} (l : list T) x, NoDup l -> ~ In x l -> NoDup (l ++ [x]).
  Proof.
    intros T l x; induction l as [|y l IH]; simpl; intros ND H.
    - constructor; auto.
    - inversion ND; subst. constructor; [|apply IH; auto].
      rewrite in_app_iff. simpl. intros [Hi|[Hi|[]]]; auto.
  Qed.

  Lemma NoDup_dset : forall k v (d : dict K V), NoDup (dkeys d) -> NoDup (dkeys (dset eq k v d)).
  Proof.
    intros k v d H. rewrite dkeys_dset. destruct (dmem eq k d) eqn:E; auto.
    apply NoDup_app_single; auto. intro H2. apply dmem_in in H2. congruence.
  Qed.

  Lemma dict_of_acc : forall (l : list (K * V)) d,
    NoDup (map fst l) -> (forall k, In k (map fst l) -> ~ In k (dkeys d)) ->
    fold_left (fun d kv => dset eq (fst kv) (snd kv) d) l d = d ++ l.
  Proof.
    intros l; induction l as [|[k v] l IH]; intros d ND H; simpl.
    - rewrite app_nil_r; auto.
    - inversion ND; subst. rewrite dset_fresh by (apply H; left; auto).
      rewrite IH; auto.
      + rewrite <- app_assoc; reflexivity.
      + intros k' Hk' Hin. unfold dkeys in Hin. rewrite map_app in Hin.
        apply in_app_iff in Hin. destruct Hin as [Hin|[<-|[]]].
        * apply (H k'); [right; auto | auto].
        * auto.
  Qed.

  Lemma dict_of_nodup : forall (l : list (K * V)), NoDup (map fst l) -> dict_of eq l = l.
  Proof. intros l H. unfold dict_of. rewrite dict_of_acc; auto. Qed.

  (** The last binding wins. *)
  Lemma dlookup_dict_of : forall (l : list (K * V)) k,
    dlookup eq k (dict_of eq l) = dlookup eq k (rev l).
  Proof.
    intros l k. unfold dict_of.
    assert (G : forall (l d : dict K V), dlookup eq k (fold_left (fun d kv => dset eq (fst kv) (snd kv) d) l d) =
                        match dlookup eq k (rev l) with Some v => Some v | None => dlookup eq k d end).
    { clear l; intros l; induction l as [|[k0 v0] l IH]; intro d; simpl; auto.
      rewrite IH, dlookup_dset.
      assert (App : forall (a b : dict K V), dlookup eq k (a ++ b) =
                match dlookup eq k a with Some v => Some v | None => dlookup eq k b end).
      { intros a b; induction a as [|[ka va] a IHa]; simpl; auto. destruct (eq k ka); auto. }
      rewrite App. destruct (dlookup eq k (rev l)); auto. simpl. destruct (eq k k0); auto. }
    rewrite G. simpl. destruct (dlookup eq k (rev l)); auto.
  Qed.

  Lemma NoDup_dict_of : forall (l : list (K * V)), NoDup (dkeys (dict_of eq l)).
  Proof.
    intros l. unfold dict_of.
    assert (G : forall (l d : dict K V), NoDup (dkeys d) -> NoDup (dkeys (fold_left (fun d kv => dset eq (fst kv) (snd kv) d) l d))).
    { clear l; intros l; induction l as [|kv l IH]; intros d H; simpl; auto. apply IH. apply NoDup_dset; auto. }
    apply G. constructor.
  Qed.

  Lemma dlookup_app : forall k (a b : dict K V),
    dlookup eq k (a ++ b) = match dlookup eq k a with Some v => Some v | None => dlookup eq k b end.
  Proof. intros k a b; induction a as [|[k0 v0] a IH]; simpl; auto. destruct (eq k k0); auto. Qed.
End Dict.

Lemma Zeqb_ok : forall a b, Z.eqb a b = true <-> a = b. Proof. apply Z.eqb_eq. Qed.
Lemma str_eqb_ok : forall a b, str_eqb a b = true <-> a = b.
Proof.
  intros a; induction a as [|x a IH]; intros [|y b]; simpl; split; intro H; try discriminate; auto.
  - apply andb_true_iff in H. destruct H as [H1 H2]. apply Z.eqb_eq in H1. apply IH in H2. congruence.
  - inversion H; subst. apply andb_true_iff; split; [apply Z.eqb_refl | apply IH; auto].
Qed.
Lemma str_eqb_refl : forall a, str_eqb a a = true. Proof. intro; apply str_eqb_ok; auto. Qed.

Lemma mem_in : forall {A} (eq : A -> A -> bool), (forall a b, eq a b = true <-> a = b) ->
  forall x l, mem eq x l = true <-> In x l.
Proof.
  intros A eq H x l. unfold mem. rewrite existsb_exists. split.
  - intros (y & Hy & E). apply H in E; subst; auto.
  - intro Hx. exists x; split; auto. apply H; auto.
Qed.
Lemma mem_false : forall {A} (eq : A -> A -> bool), (forall a b, eq a b = true <-> a = b) ->
  forall x l, mem eq x l = false <-> ~ In x l.
Proof.
  intros A eq H x l. rewrite <- (mem_in eq H). destruct (mem eq x l); split; congruence.
Qed.

(** [list.index] *)
Lemma index_of_some : forall {A} (eq : A -> A -> bool) v l n,
  index_of eq v l = Some n ->
  exists x, nth_error l n = Some x /\ eq x v = true /\
            forall m y, m < n -> nth_error l m = Some y -> eq y v = false.
Proof.
  intros A eq v l; induction l as [|x l IH]; intros n H; simpl in H; [discriminate|].
  destruct (eq x v) eqn:E.
  - inversion H; subst. exists x; repeat split; auto. intros; lia.
  - destruct (index_of eq v l) as [k|] eqn:E2; simpl in H; [|discriminate]. inversion H; subst.
    destruct (IH k eq_refl) as (y & Hy & Ey & Hm). exists y; repeat split; auto.
    intros [|m] z Hm2 Hz; simpl in Hz; [congruence|]. apply (Hm m); auto. lia.
Qed.
Lemma index_of_none : forall {A} (eq : A -> A -> bool) v l,
  index_of eq v l = None <-> forall x, In x l -> eq x v = false.
Proof.
  intros A eq v l; induction l as [|x l IH]; simpl.
  - split; auto. intros _ x [].
  - destruct (eq x v) eqn:E.
    + split; [discriminate|]. intro H. rewrite H in E; auto. discriminate.
    + destruct (index_of eq v l) eqn:E2; simpl.
      * split; [discriminate|]. intro H. exfalso.
        assert (None = Some n :> option nat); [|discriminate].
        symmetry. apply IH. intros; apply H; auto.
      * split; auto. intros _ y [<-|Hy]; auto. apply IH; auto.
Qed.

Lemma foldM_app : forall {A B} (f : B -> A -> res B) l1 l2 b,
  foldM f (l1 ++ l2) b = (b' <- foldM f l1 b ;; foldM f l2 b').
Proof.
  intros A B f l1; induction l1 as [|x l1 IH]; intros l2 b; simpl; auto.
  destruct (f b x); simpl; auto.
Qed.
Lemma foldM_ext : forall {A B} (f g : B -> A -> res B) l b,
  (forall b x, In x l -> f b x = g b x) -> foldM f l b = foldM g l b.
Proof.
  intros A B f g l; induction l as [|x l IH]; intros b H; simpl; auto.
  rewrite H by (left; auto). destruct (g b x); simpl; auto. apply IH. intros; apply H; right; auto.
Qed.
Lemma foldM_pure : forall {A B} (f : B -> A -> res B) (g : B -> A -> B) l b,
  (forall b x, In x l -> f b x = Ok (g b x)) -> foldM f l b = Ok (fold_left g l b).
Proof.
  intros A B f g l; induction l as [|x l IH]; intros b H; simpl; auto.
  rewrite H by (left; auto). simpl. apply IH. intros; apply H; right; auto.
Qed.

Lemma Forall2_imp : forall {A B} (P Q : A -> B -> Prop) l m,
  (forall x y, P x y -> Q x y) -> Forall2 P l m -> Forall2 Q l m.
Proof. intros A B P Q l m H F; induction F; constructor; auto. Qed.

Lemma Forall2_map_l : forall {A B C} (f : A -> B) (R : B -> C -> Prop) l m,
  Forall2 R (map f l) m <-> Forall2 (fun x y => R (f x) y) l m.
Proof.
  intros A B C f R l; induction l as [|x l IH]; intros m; split; intro H; inversion H; subst; constructor; auto; apply IH; auto.
Qed.
Lemma Forall2_map_r : forall {A B C} (f : B -> C) (R : A -> C -> Prop) l m,
  Forall2 R l (map f m) <-> Forall2 (fun x y => R x (f y)) l m.
Proof.
  intros A B C f R l; induction l as [|x l IH]; intros [|y m]; simpl; split; intro H; inversion H; subst; constructor; auto; apply IH; auto.
Qed.
Lemma Forall2_iff : forall {A B} (P Q : A -> B -> Prop) l m,
  (forall x y, P x y <-> Q x y) -> (Forall2 P l m <-> Forall2 Q l m).
Proof. intros A B P Q l m H. split; apply Forall2_imp; intros; apply H; auto. Qed.
Lemma Forall2_nth_error : forall {A B} (R : A -> B -> Prop) l m,
  Forall2 R l m <-> length l = length m /\ forall i x y, nth_error l i = Some x -> nth_error m i = Some y -> R x y.
Proof.
  intros A B R l; induction l as [|x l IH]; intros [|y m]; split.
  - intros _. split; auto. intros [|i]; discriminate.
  - intros _. constructor.
  - intro H; inversion H.
  - intros [H _]; discriminate.
  - intro H; inversion H.
  - intros [H _]; discriminate.
  - intro H; inversion H; subst. apply IH in H5. destruct H5 as [E H5]. split; [simpl; auto|].
    intros [|i] a b; simpl; intros; [congruence|eauto].
  - intros [E H]. constructor; [apply (H 0); auto|]. apply IH. split; [simpl in E; auto|]. intros i a b Ha Hb. apply (H (S i)); auto.
Qed.

Lemma nth_error_len : forall {A B} (l : list A) (m : list B) k y, length l = length m ->
  nth_error m k = Some y -> exists x, nth_error l k = Some x.
Proof.
  intros A B l m k y H E. destruct (nth_error l k) eqn:F; eauto. apply nth_error_None in F.
  rewrite H in F. apply nth_error_None in F. congruence.
Qed.

Lemma foldM_range_nth : forall {A B} (l : list A) (f : B -> A -> res B) b,
  foldM (fun b i => x <- lnth l i ;; f b x) (range (length l)) b = foldM f l b.
Proof.
  intros A B l f. 
  assert (G : forall l' pre b, foldM (fun b i => x <- lnth (pre ++ l') i ;; f b x) (seq (length pre) (length l')) b = foldM f l' b).
  { induction l' as [|x l' IH]; intros pre b; simpl; auto.
    unfold lnth at 1. rewrite nth_error_app2, Nat.sub_diag by lia. simpl.
    destruct (f b x) as [b'|]; simpl; auto.
    specialize (IH (pre ++ [x]) b'). rewrite <- app_assoc in IH. simpl in IH.
    rewrite app_length in IH. simpl in IH. rewrite Nat.add_1_r in IH. auto. }
  intro b. apply (G l [] b).
Qed.
Lemma foldM_err_all : forall {A B} (f : B -> A -> res B) l b e, l <> [] -> (forall b x, f b x = Err e) -> foldM f l b = Err e.
Proof. intros A B f [|x l] b e N H; [congruence|]. simpl. rewrite H. auto. Qed.
Lemma nth_error_lt : forall {A} (l : list A) k y, nth_error l k = Some y -> (k < length l)%nat.
Proof. intros A l k y H. apply nth_error_Some. rewrite H. discriminate. Qed.

(** Substring test. *)
Lemma str_prefix_ok : forall s t, str_prefix s t = true <-> exists v, t = s ++ v.
Proof.
  induction s as [|a s IH]; intros t; simpl.
  - split; eauto.
  - destruct t as [|b t]; [split; [discriminate|intros [v E]; discriminate]|].
    rewrite Bool.andb_true_iff, IH, Z.eqb_eq. split.
    + intros [-> [v ->]]. eauto.
    + intros [v E]. injection E as -> ->. eauto.
Qed.
Lemma str_in_ok : forall s t, str_in s t = true <-> exists u v, t = u ++ s ++ v.
Proof.
  intros s t; induction t as [|b t IH]; simpl; rewrite Bool.orb_true_iff, str_prefix_ok; split.
  - intros [[v E]|]; [|discriminate]. exists [], v. auto.
  - intros (u & v & E). left. symmetry in E. apply app_eq_nil in E. destruct E as [_ E]. exists v. auto.
  - intros [[v E]|H]; [exists [], v; auto|]. apply IH in H. destruct H as (u & v & ->). exists (b :: u), v. auto.
  - intros (u & v & E). destruct u as [|a u]; [left; exists v; auto|]. injection E as -> ->. right. apply IH. eauto.
Qed.

Lemma Forall2_diag : forall {A} (R : A -> A -> Prop) l, (forall x, In x l -> R x x) -> Forall2 R l l.
Proof. intros A R l. induction l; intro H; constructor; [apply H; left; auto|apply IHl; intros; apply H; right; auto]. Qed.
