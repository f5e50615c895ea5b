(** Decision trees: the descent loop computes the specified leaf. *)
From Coq Require Import Lia.
From Verif Require Import Model.Py Model.Arith Model.Utils Model.Base Model.Tree.
From Verif Require Import Spec.Matrix Spec.Trees.
From Verif Require Import Proofs.Lib Proofs.Laws Proofs.Unit Proofs.Argmax Proofs.Arrays.

Lemma lget_err : forall {T} (l : list T) i e, lget l i = Err e -> e = IndexError.
Proof.
  intros T l i e. unfold lget, lnth. destruct (_ && _); [|congruence].
  destruct (nth_error _ _); congruence.
Qed.
Lemma lget_range : forall {T} (l : list T) i a, lget l i = Ok a -> (- Z.of_nat (length l) <= i < Z.of_nat (length l))%Z.
Proof.
  intros T l i a. unfold lget.
  destruct (i <? 0)%Z eqn:E; destruct (_ && _) eqn:F; try discriminate; intros _;
    apply andb_true_iff in F; destruct F; lia.
Qed.

Lemma not_nodup : forall (l : list Z), ~ NoDup l -> exists a l1 l2 l3, l = l1 ++ a :: l2 ++ a :: l3.
Proof.
  induction l as [|x l IH]; intro H; [elim H; constructor|].
  destruct (in_dec Z.eq_dec x l) as [Hx|Hx].
  - apply in_split in Hx. destruct Hx as (l2 & l3 & ->). exists x, [], l2, l3. auto.
  - destruct IH as (a & l1 & l2 & l3 & ->).
    + intro ND. apply H. constructor; auto.
    + exists a, (x :: l1), l2, l3. auto.
Qed.

Section Descent.
  Context {A : arith} {L : Type}.
  Variable t : tree A L.
  Variable x : item A.

  (** One round of the loop: the next node, if the loop goes on. *)
  Definition step (nd : Z) : option Z :=
    match lget (t_left t) nd, lget (t_right t) nd with
    | Ok l, Ok r =>
        if (l =? r)%Z then None
        else match split_value t x nd, lget (t_thr t) nd with
             | Ok v, Ok h => Some (if leb v h then l else r)
             | _, _ => None
             end
    | _, _ => None
    end.

  Lemma split_err : forall nd e, split_value t x nd = Err e -> e <> Diverges.
  Proof.
    intros nd e H. unfold split_value in H.
    destruct (lget (t_feature t) nd) as [f|e0] eqn:E; simpl in H.
    - destruct x; simpl in H; try (inversion H; congruence). apply lget_err in H. congruence.
    - apply lget_err in E. congruence.
  Qed.

  Lemma descend_step : forall F nd,
    descend t x (S F) nd = match step nd with Some nd' => descend t x F nd' | None => descend t x 1 nd end.
  Proof.
    intros F nd. simpl. unfold step.
    destruct (lget (t_left t) nd); simpl; auto.
    destruct (lget (t_right t) nd); simpl; auto.
    destruct (_ =? _)%Z; auto.
    destruct (split_value t x nd); simpl; auto.
    destruct (lget (t_thr t) nd); simpl; auto.
    destruct (leb _ _); auto.
  Qed.

  Lemma descend_stop : forall nd, step nd = None -> descend t x 1 nd <> Err Diverges.
  Proof.
    intros nd. unfold step. simpl.
    destruct (lget (t_left t) nd) eqn:E1; simpl; [|apply lget_err in E1; congruence].
    destruct (lget (t_right t) nd) eqn:E2; simpl; [|apply lget_err in E2; congruence].
    destruct (_ =? _)%Z; [congruence|].
    destruct (split_value t x nd) eqn:E3; simpl; [|apply split_err in E3; congruence].
    destruct (lget (t_thr t) nd) eqn:E4; simpl; [|apply lget_err in E4; congruence].
    discriminate.
  Qed.

  Fixpoint iter (k : nat) (nd : Z) : option Z :=
    match k with O => Some nd | S k' => match step nd with Some nd' => iter k' nd' | None => None end end.

  Lemma diverges_iter : forall F nd, descend t x F nd = Err Diverges <-> iter F nd <> None.
  Proof.
    induction F as [|F IH]; intro nd; [simpl; split; congruence|].
    rewrite descend_step. cbn [iter]. destruct (step nd) eqn:E; auto.
    apply descend_stop in E. split; congruence.
  Qed.

  Lemma iter_add : forall i k nd, iter (i + k) nd = match iter i nd with Some z => iter k z | None => None end.
  Proof. induction i as [|i IH]; intros k nd; simpl; auto. destruct (step nd); auto. Qed.

  Lemma step_range : forall nd nd', step nd = Some nd' ->
    (- Z.of_nat (length (t_left t)) <= nd < Z.of_nat (length (t_left t)))%Z.
  Proof.
    intros nd nd'. unfold step. destruct (lget (t_left t) nd) eqn:E; [|discriminate]. intros _.
    eapply lget_range; eauto.
  Qed.

  (** The fuel of [get_leaf_node] decides termination. *)
  Lemma fuel_enough : descend t x (S (2 * length (t_left t))) 0 = Err Diverges ->
    forall F, descend t x F 0 = Err Diverges.
  Proof.
    intros H F. apply diverges_iter in H. apply diverges_iter.
    set (n := length (t_left t)) in *.
    assert (D : forall k, k <= S (2 * n) -> iter k 0 <> None).
    { intros k Hk E. apply H. replace (S (2 * n)) with (k + (S (2 * n) - k)) by lia. rewrite iter_add, E. auto. }
    set (f := fun k => match iter k 0 with Some z => z | None => 0%Z end).
    assert (P : ~ NoDup (map f (seq 0 (S (2 * n))))).
    { intro ND. apply NoDup_incl_length with (l' := zrange (- Z.of_nat n) (Z.of_nat n)) in ND.
      - rewrite map_length, seq_length, zrange_length in ND. lia.
      - intros z Hz. apply in_map_iff in Hz. destruct Hz as (k & <- & Hk). apply in_seq in Hk.
        apply in_zrange. unfold f.
        pose proof (D (k + 1) ltac:(lia)) as Dk. rewrite iter_add in Dk.
        destruct (iter k 0) as [z|]; [|congruence]. simpl in Dk.
        destruct (step z) eqn:E; [|congruence]. eapply step_range; eauto. }
    apply not_nodup in P. destruct P as (a & l1 & l2 & l3 & P).
    assert (I : f (length l1) = a /\ f (length l1 + S (length l2)) = a /\ length l1 + S (length l2) <= 2 * n).
    { assert (Ln : length (l1 ++ a :: l2 ++ a :: l3) = S (2 * n)) by (rewrite <- P, map_length, seq_length; auto).
      rewrite app_length in Ln. simpl in Ln. rewrite app_length in Ln. simpl in Ln.
      assert (N : forall k, k < S (2 * n) -> nth_error (map f (seq 0 (S (2 * n)))) k = Some (f k)).
      { intros k Hk. rewrite nth_error_map', nth_error_seq. destruct (Nat.ltb_spec k (S (2*n))); [auto|lia]. }
      repeat split; [| |lia].
      - specialize (N (length l1) ltac:(lia)). rewrite P in N.
        rewrite nth_error_app2, Nat.sub_diag in N by lia. simpl in N. congruence.
      - specialize (N (length l1 + S (length l2)) ltac:(lia)). rewrite P in N.
        rewrite nth_error_app2 in N by lia.
        replace (length l1 + S (length l2) - length l1) with (S (length l2)) in N by lia. simpl in N.
        rewrite nth_error_app2, Nat.sub_diag in N by lia. simpl in N. congruence. }
    destruct I as (I1 & I2 & I3).
    set (i := length l1) in *. set (j := i + S (length l2)) in *.
    assert (Ei : iter i 0 = iter j 0).
    { unfold f in I1, I2. pose proof (D i ltac:(lia)). pose proof (D j ltac:(lia)).
      destruct (iter i 0), (iter j 0); congruence. }
    assert (G : forall k, iter k 0 <> None).
    { intro k. induction k as [k IH] using lt_wf_ind. destruct (le_lt_dec k (S (2 * n))) as [Hk|Hk]; [apply D; auto|].
      replace k with (j + (k - j)) by lia. rewrite iter_add, <- Ei, <- iter_add. apply IH. lia. }
    apply G.
  Qed.

  Lemma descend_mono : forall F k nd, descend t x F nd <> Err Diverges -> descend t x (F + k) nd = descend t x F nd.
  Proof.
    induction F as [|F IH]; intros k nd H; [simpl in H; congruence|].
    change (S F + k) with (S (F + k)). rewrite (descend_step F nd) in *. rewrite (descend_step (F + k) nd). destruct (step nd); auto.
  Qed.

  (** A result reached with some fuel is the result of [get_leaf_node]. *)
  Lemma get_leaf_enough : forall F r, r <> Err Diverges -> descend t x F 0 = r -> get_leaf_node t x = r.
  Proof.
    intros F r N E. unfold get_leaf_node. set (G := S (2 * length (t_left t))).
    destruct (le_lt_dec F G) as [H|H].
    - replace G with (F + (G - F)) by lia. rewrite descend_mono; congruence.
    - replace F with (G + (F - G)) in E by lia.
      assert (Q : descend t x G 0 <> Err Diverges).
      { intro Q. apply (fuel_enough) with (F := G + (F - G)) in Q. congruence. }
      rewrite descend_mono in E; auto.
  Qed.

  (** Lookup of a feature in a row. *)
  Definition xget (f : nat) : option A :=
    match x with
    | Sc _ => None
    | Ls r => nth_error r f
    | Di d => Some (dget_default Z.eqb d (Z.of_nat f) zero)
    end.
  Fixpoint fallx (s : dtree A) : option (list A) :=
    match s with
    | Leaf v => Some v
    | Node f h l r =>
        match xget f with
        | None => None
        | Some y => if leb y h then fallx l else fallx r
        end
    end.
  Definition not_scalar := match x with Sc _ => False | _ => True end.

  Lemma split_value_xget : forall nd f, not_scalar -> nth_error (t_feature t) nd = Some (Z.of_nat f) ->
    split_value t x (Z.of_nat nd) = match xget f with Some y => Ok y | None => Err IndexError end.
  Proof.
    intros nd f NS H. unfold split_value, xget. rewrite lget_nat. unfold lnth at 1. rewrite H. simpl.
    unfold not_scalar in NS. destruct x; simpl; [contradiction| |auto]. rewrite lget_nat. unfold lnth. auto.
  Qed.

  Lemma descend_encodes : not_scalar -> forall nd s, encodes t nd s ->
    exists F, match fallx s with
              | Some v => exists k, descend t x F (Z.of_nat nd) = Ok (Z.of_nat k) /\ nth_error (t_value t) k = Some v
              | None => descend t x F (Z.of_nat nd) = Err IndexError
              end.
  Proof.
    intros NS nd s H; induction H as [nd c v HL HR HV | nd l r f h sl sr HL HR NE HF HT Hl [Fl IHl] Hr [Fr IHr]].
    - exists 1. simpl. exists nd. rewrite !lget_nat. unfold lnth. rewrite HL, HR. simpl. rewrite Z.eqb_refl. auto.
    - assert (D : forall F, descend t x (S F) (Z.of_nat nd) =
                  match xget f with
                  | Some y => if leb y h then descend t x F (Z.of_nat l) else descend t x F (Z.of_nat r)
                  | None => Err IndexError
                  end).
      { intro F. simpl. rewrite (split_value_xget nd f NS HF), !lget_nat. unfold lnth. rewrite HL, HR, HT. simpl.
        destruct (Z.eqb_spec (Z.of_nat l) (Z.of_nat r)); [lia|]. destruct (xget f); auto. }
      simpl. destruct (xget f) as [y|]; [|exists 1; apply D].
      destruct (leb y h).
      + exists (S Fl). rewrite D. auto.
      + exists (S Fr). rewrite D. auto.
  Qed.

  Lemma get_leaf_fall : not_scalar -> forall s, encodes t 0 s ->
    match fallx s with
    | Some v => exists k, get_leaf_node t x = Ok (Z.of_nat k) /\ nth_error (t_value t) k = Some v
    | None => get_leaf_node t x = Err IndexError
    end.
  Proof.
    intros NS s H. destruct (descend_encodes NS 0 s H) as [F E]. change (Z.of_nat 0) with 0%Z in E.
    destruct (fallx s) as [v|].
    - destruct E as (k & E & V). exists k. split; auto. eapply get_leaf_enough; eauto. discriminate.
    - eapply get_leaf_enough; eauto. discriminate.
  Qed.
  Lemma get_leaf_total : forall s, encodes t 0 s -> get_leaf_node t x <> Err Diverges.
  Proof.
    intros s HE. assert (C : not_scalar \/ exists a, x = Sc a) by (unfold not_scalar; destruct x; eauto).
    destruct C as [NS|[a C]].
    - pose proof (get_leaf_fall NS s HE) as G. destruct (fallx s); [destruct G as (k & G & _)|]; rewrite G; discriminate.
    - assert (S1 : step 0 = None).
      { unfold step. destruct (lget (t_left t) 0); auto. destruct (lget (t_right t) 0); auto. destruct (_ =? _)%Z; auto.
        unfold split_value. destruct (lget (t_feature t) 0); simpl; auto. rewrite C. auto. }
      apply descend_stop in S1. erewrite get_leaf_enough; eauto.
  Qed.
End Descent.

Section TreeApi.
  Context {A : arith} {L : Type}.
  Variable t : tree A L.

  Lemma fallx_dense : forall (row : list A) s, fallx (Ls row) s = fall row s.
  Proof. intros row s; induction s as [v|f h l IHl r IHr]; simpl; auto. rewrite IHl, IHr. auto. Qed.

  (** Sparse rows fall like the rows they store. *)
  Lemma fallx_sparse : ord_ok A -> forall (d : dict Z A) row s, stores d row -> features_below (length row) s ->
    fallx (Di d) s = fall row s.
  Proof.
    intros OK d row s S; induction s as [v|f h l IHl r IHr]; simpl; auto.
    intros (Hf & Hl & Hr). rewrite IHl, IHr by auto.
    destruct (nth_error row f) as [y|] eqn:E; [|apply nth_error_None in E; lia].
    destruct (stores_get _ _ _ _ S E) as [->|[Z ->]]; auto.
    unfold is0 in Z.
    replace (leb zero h) with (leb y h); auto.
    rewrite !(o_leb _ OK). rewrite (o_eq_lt_l _ OK _ _ _ Z). f_equal.
    destruct (eqb zero h) eqn:Q.
    - eapply (o_eq_trans _ OK); eauto.
    - destruct (eqb y h) eqn:Q2; auto. rewrite (o_sym _ OK) in Z.
      rewrite (o_eq_trans _ OK _ _ _ Z Q2) in Q. discriminate.
  Qed.

  (** The same leaf is reached from a dense row and from its storage. *)
  Lemma descend_sparse : forall (row : list A) (d : dict Z A), ord_ok A -> stores d row ->
    forall nd s, encodes t nd s -> features_below (length row) s ->
    exists F k, descend t (Di d) F (Z.of_nat nd) = Ok k /\ descend t (Ls row) F (Z.of_nat nd) = Ok k.
  Proof.
    intros row d OK HS nd s H; induction H as [nd c v HL HR HV | nd l r f h sl sr HL HR NE HF HT Hl IHl Hr IHr]; intro HB.
    - exists 1, (Z.of_nat nd). simpl. rewrite !lget_nat. unfold lnth. rewrite HL, HR. simpl. rewrite Z.eqb_refl. auto.
    - destruct HB as (Hf & Bl & Br).
      destruct (IHl Bl) as (Fl & kl & El1 & El2). destruct (IHr Br) as (Fr & kr & Er1 & Er2).
      assert (D : forall x F, not_scalar x -> descend t x (S F) (Z.of_nat nd) =
                  match xget x f with
                  | Some y => if leb y h then descend t x F (Z.of_nat l) else descend t x F (Z.of_nat r)
                  | None => Err IndexError
                  end).
      { intros x F NS. simpl. rewrite (split_value_xget t x nd f NS HF), !lget_nat. unfold lnth. rewrite HL, HR, HT. simpl.
        destruct (Z.eqb_spec (Z.of_nat l) (Z.of_nat r)); [lia|]. destruct (xget x f); auto. }
      assert (G : exists y y', xget (Di d) f = Some y' /\ xget (Ls row) f = Some y /\ leb y' h = leb y h).
      { pose proof (fallx_sparse OK d row (Node f h (Leaf [zero]) (Leaf [])) HS) as Q. simpl in Q. simpl.
        destruct (nth_error row f) as [y|] eqn:E; [|apply nth_error_None in E; lia].
        exists y, (dget_default Z.eqb d (Z.of_nat f) zero). repeat split; auto.
        specialize (Q (conj Hf (conj I I))).
        destruct (leb _ h), (leb y h); auto; discriminate. }
      destruct G as (y & y' & G1 & G2 & G3).
      destruct (leb y h) eqn:Y.
      + exists (S Fl), kl. rewrite !D by exact I. rewrite G1, G2, G3, Y. auto.
      + exists (S Fr), kr. rewrite !D by exact I. rewrite G1, G2, G3, Y. auto.
  Qed.

  Lemma fall_below : forall (row : list A) s, features_below (length row) s -> exists v, fall row s = Some v.
  Proof.
    intros row s; induction s as [v|f h l IHl r IHr]; simpl; eauto. intros (Hf & Hl & Hr).
    destruct (nth_error row f) eqn:E; [|apply nth_error_None in E; lia]. destruct (leb _ _); auto.
  Qed.
  Lemma fall_leaf : forall P (row : list A) s v, all_leaves P s -> fall row s = Some v -> P v.
  Proof.
    intros P row s; induction s as [v|f h l IHl r IHr]; intros w; simpl.
    - congruence.
    - intros [Hl Hr]. destruct (nth_error row f); [|discriminate]. destruct (leb _ _); auto.
  Qed.

  (** A value computed from the leaf: [g] applied to the leaf's entry. *)
  Lemma leaf_map : forall {B} (g : list A -> res B) x s, not_scalar x -> encodes t 0 s ->
    (nd <- get_leaf_node t x ;; v <- lget (t_value t) nd ;; g v) =
    match fallx x s with Some v => g v | None => Err IndexError end.
  Proof.
    intros B g x s NS H. pose proof (get_leaf_fall t x NS s H) as G.
    destruct (fallx x s) as [v|].
    - destruct G as (k & -> & V). simpl. rewrite lget_nat. unfold lnth. rewrite V. auto.
    - rewrite G. auto.
  Qed.

  Lemma leaf_ok : forall x s, not_scalar x -> encodes t 0 s -> forall v, fallx x s = Some v ->
    exists nd, get_leaf_node t x = Ok nd /\ lget (t_value t) nd = Ok v.
  Proof.
    intros x s NS H v E. pose proof (get_leaf_fall t x NS s H) as G. rewrite E in G.
    destruct G as (k & G & V). exists (Z.of_nat k). rewrite lget_nat. unfold lnth. rewrite V. auto.
  Qed.

  (** The items of a non-empty 2-D input. *)
  Definition inputs (X : arr A) (l : list (item A)) : Prop :=
    match X with
    | Arr l' => l' = l /\ l <> []
    | Sp rows _ _ => l = map Di rows
    | _ => False
    end /\ Forall not_scalar l.

  Lemma inputs_ll : forall M, M <> [] -> inputs (ll M) (map Ls M).
  Proof.
    intros M N. split; [split; auto; destruct M; [congruence|discriminate]|].
    apply Forall_forall. intros y Hy. apply in_map_iff in Hy. destruct Hy as (r & <- & _). exact I.
  Qed.
  Lemma inputs_sp : forall rows sz dt, inputs (Sp rows sz dt) (map Di rows).
  Proof.
    intros. split; simpl; auto.
    apply Forall_forall. intros y Hy. apply in_map_iff in Hy. destruct Hy as (r & <- & _). exact I.
  Qed.

  Lemma leaves_eq : forall X l, inputs X l -> leaves t X = mapM (get_leaf_node t) l.
  Proof.
    intros X l [H _]. unfold leaves. destruct X as [l'|rows sz dt| |]; simpl in H; try contradiction.
    - destruct H as [-> N]. destruct l; [congruence|]. reflexivity.
    - subst l. reflexivity.
  Qed.

  (** A method that maps the leaf's entry through [g], in two passes. *)
  Lemma two_pass : forall {B} (h : Z -> res B) (g : list A -> res B) X l s,
    (forall nd, h nd = (v <- lget (t_value t) nd ;; g v)) ->
    inputs X l -> encodes t 0 s -> (forall x, In x l -> fallx x s <> None) ->
    (lv <- leaves t X ;; mapM h lv) = mapM (fun x => match fallx x s with Some v => g v | None => Err IndexError end) l.
  Proof.
    intros B h g X l s Hh HI HE HF. rewrite (leaves_eq X l HI). destruct HI as [_ HN].
    rewrite Forall_forall in HN.
    destruct (mapM_total (get_leaf_node t) l) as [lv E].
    { intros x Hx. destruct (fallx x s) as [v|] eqn:F; [|elim (HF x Hx F)].
      destruct (leaf_ok x s (HN x Hx) HE v F) as (nd & G & _). eauto. }
    rewrite E. cbn [bind]. rewrite (mapM_mapM _ _ _ _ E). apply mapM_ext. intros x Hx.
    rewrite <- (leaf_map g x s (HN x Hx) HE). destruct (get_leaf_node t x); simpl; auto.
  Qed.

  (** ... and if some row is too short the first pass raises IndexError. *)
  Lemma short_row : forall {B} (h : Z -> res B) X l s,
    inputs X l -> encodes t 0 s -> (exists x, In x l /\ fallx x s = None) ->
    (lv <- leaves t X ;; mapM h lv) = Err IndexError.
  Proof.
    intros B h X l s HI HE (x & Hx & F). rewrite (leaves_eq X l HI). destruct HI as [_ HN].
    replace (mapM (get_leaf_node t) l) with (@Err (list Z) IndexError); auto. symmetry.
    clear - HN HE Hx F. induction l as [|y l IH]; [destruct Hx|]. inversion HN; subst. simpl.
    pose proof (get_leaf_fall t y H1 s HE) as G. destruct (fallx y s) eqn:Fy.
    - destruct G as (k & -> & _). simpl. destruct Hx as [->|Hx]; [congruence|]. rewrite IH; auto.
    - rewrite G. auto.
  Qed.
  Lemma two_pass_ok : forall {B} (h : Z -> res B) (g : list A -> res B) X l s,
    (forall nd, h nd = (v <- lget (t_value t) nd ;; g v)) ->
    inputs X l -> encodes t 0 s ->
    forall out, (lv <- leaves t X ;; mapM h lv) = Ok out <->
                Forall2 (fun x y => exists v, fallx x s = Some v /\ g v = Ok y) l out.
  Proof.
    intros B h g X l s Hh HI HE out.
    assert (D : (forall x, In x l -> fallx x s <> None) \/ exists x, In x l /\ fallx x s = None).
    { clear. induction l as [|x l [IH|(y & Hy & E)]].
      - left. intros x [].
      - destruct (fallx x s) eqn:E.
        + left. intros y [<-|Hy]; [congruence|auto].
        + right. exists x. simpl; auto.
      - right. exists y. simpl; auto. }
    destruct D as [D|D].
    - rewrite (two_pass h g X l s Hh HI HE D), mapM_Forall2. split; apply Forall2_imp; intros x y.
      + destruct (fallx x s); [eauto|discriminate].
      + intros (v & -> & E). auto.
    - rewrite (short_row h X l s HI HE D). split; [discriminate|]. intro F. exfalso.
      destruct D as (x & Hx & E). clear - F Hx E. induction F as [|a b l out (v & Q & _) F IH]; [destruct Hx|].
      destruct Hx as [<-|Hx]; [congruence|auto].
  Qed.

  Lemma tree_predict_passes : forall X, tree_predict t X =
    (lv <- leaves t X ;; p <- mapM (leaf_pred t) lv ;; mapM (lnth (t_classes t)) p).
  Proof. reflexivity. Qed.
  Lemma tree_predict_ok : forall X l s, inputs X l -> encodes t 0 s -> forall out,
    tree_predict t X = Ok out <->
    Forall2 (fun x y => exists v i, fallx x s = Some v /\ argmax v = Ok i /\ nth_error (t_classes t) i = Some y) l out.
  Proof.
    intros X l s HI HE out. unfold tree_predict.
    pose proof (two_pass_ok (leaf_pred t) argmax X l s (fun nd => eq_refl) HI HE) as P.
    split.
    - intro H. inv_bind H. inv_bind H.
      assert (Q : (lv <- leaves t X ;; mapM (leaf_pred t) lv) = Ok a0) by (rewrite E; exact E0).
      apply P in Q. apply mapM_Forall2 in H. clear - Q H. revert out H.
      induction Q as [|x i l is (v & F & G) Q IH]; intros out H; inversion H; subst; constructor; auto.
      exists v, i. rewrite lnth_ok in H2. auto.
    - intro F. assert (Q : exists is, Forall2 (fun x y => exists v, fallx x s = Some v /\ argmax v = Ok y) l is /\
                               Forall2 (fun i y => nth_error (t_classes t) i = Some y) is out).
      { clear - F. induction F as [|x y l out (v & i & F1 & F2 & F3) F (is & I1 & I2)]; [exists []; auto|].
        exists (i :: is). split; constructor; eauto. }
      destruct Q as (is & Q1 & Q2). apply P in Q1. inv_bind Q1. rewrite E. simpl. rewrite Q1. simpl.
      apply mapM_Forall2. eapply Forall2_imp; [|exact Q2]. intros; apply lnth_ok; auto.
  Qed.
  Lemma tree_proba_ok : forall X l s, inputs X l -> encodes t 0 s -> forall out,
    tree_predict_proba t X = Ok out <->
    Forall2 (fun x p => exists v, fallx x s = Some v /\ mapM (fun a => div a (psum v)) v = Ok p) l out.
  Proof. intros. apply (two_pass_ok (leaf_proba t) (fun v => mapM (fun a => div a (psum v)) v)); auto. Qed.
  Lemma reg_predict_ok : forall X l s, inputs X l -> encodes t 0 s -> forall out,
    reg_predict t X = Ok out <->
    Forall2 (fun x y => exists v, fallx x s = Some v /\ lnth v 0 = Ok y) l out.
  Proof. intros. apply (two_pass_ok (leaf_value t) (fun v => lnth v 0)); auto. Qed.

  Lemma leaves_sparse : ord_ok A -> forall rows M sz dt s, encodes t 0 s -> M <> [] ->
    Forall2 stores rows M -> Forall (fun r => features_below (length r) s) M ->
    leaves t (Sp rows sz dt) = leaves t (ll M).
  Proof.
    intros OK rows M sz dt s HE N HS HF. rewrite (leaves_eq _ _ (inputs_ll M N)), (leaves_eq _ _ (inputs_sp rows sz dt)).
    assert (K : forall (d : dict Z A) row, stores d row -> features_below (length row) s -> get_leaf_node t (Di d) = get_leaf_node t (Ls row)).
    { intros d row HS0 F. destruct (descend_sparse row d OK HS0 0 s HE F) as (F1 & k & E1 & E2).
      transitivity (@Ok Z k).
      - eapply get_leaf_enough; [discriminate|exact E1].
      - symmetry. eapply get_leaf_enough; [discriminate|exact E2]. }
    clear N. induction HS as [|d row rows M S HS IH]; simpl; auto. inversion HF; subst.
    rewrite (K d row) by auto. rewrite IH by auto. auto.
  Qed.
End TreeApi.

(** Arrays with children numbered after their parent encode a tree. *)
Lemma fitted_encodes : forall {A : arith} {L} (t : tree A L), fitted t -> exists s, encodes t 0 s.
Proof.
  intros A L t (N1 & LR & LF & LT & LV & H). set (n := length (t_left t)) in *.
  assert (G : forall k nd, n - nd <= k -> nd < n -> exists s, encodes t nd s).
  { induction k as [|k IH]; intros nd Hk Hn; [lia|].
    destruct (H nd Hn) as [[H1 H2] | (l & r & f & H1 & H2 & H3 & Hl & Hr & NE)].
    - destruct (nth_error (t_value t) nd) as [v|] eqn:E; [|apply nth_error_None in E; lia].
      exists (Leaf v). econstructor; eauto.
    - destruct (IH l ltac:(lia) ltac:(lia)) as [sl Hsl]. destruct (IH r ltac:(lia) ltac:(lia)) as [sr Hsr].
      destruct (nth_error (t_thr t) nd) as [h|] eqn:E; [|apply nth_error_None in E; lia].
      exists (Node f h sl sr). econstructor; eauto. }
  apply (G n 0); lia.
Qed.

Lemma Forall2_build : forall {T U} (R : T -> U -> Prop) l, (forall x, In x l -> exists y, R x y) -> exists m, Forall2 R l m.
Proof.
  intros T U R l; induction l as [|x l IH]; intro H; [exists []; constructor|].
  destruct (H x (or_introl eq_refl)) as [y Hy]. destruct IH as [m Hm]; [intros; apply H; right; auto|].
  exists (y :: m). constructor; auto.
Qed.

Lemma tree_proba_unit : forall {A : arith} {L} (U : unit_ok A) (t : tree A L) s (M : list (list A)),
  encodes t 0 s -> M <> [] -> Forall (fun row => features_below (length row) s) M ->
  all_leaves (fun v => Forall (fun n => leb zero n = true) v /\ finite (psum v) /\ eqb (psum v) zero = false) s ->
  exists P, tree_predict_proba t (ll M) = Ok P /\
    Forall2 (fun row p => exists v, fall row s = Some v /\ length p = length v) M P /\
    Forall (Forall (fun q => leb zero q = true /\ leb q one = true)) P.
Proof.
  intros A L U t s M HE N HF HA. rewrite Forall_forall in HF.
  destruct (Forall2_build (fun row p => exists v, fall row s = Some v /\ mapM (fun a => div a (psum v)) v = Ok p /\
              length p = length v /\ Forall (fun q => leb zero q = true /\ leb q one = true) p) M) as [P HP].
  - intros row Hrow. destruct (fall_below row s (HF row Hrow)) as [v Hv].
    destruct (fall_leaf _ _ _ _ HA Hv) as (H0 & H1 & H2).
    destruct (normalised_unit U v H0 H1 H2) as (p & E & Lp & B). exists p, v. auto.
  - exists P. split; [|split].
    + apply (tree_proba_ok t (ll M) (map Ls M) s (inputs_ll M N) HE). apply Forall2_map_l.
      eapply Forall2_imp; [|exact HP]. intros row p (v & F & E & _). exists v. rewrite fallx_dense. auto.
    + eapply Forall2_imp; [|exact HP]. intros row p (v & F & _ & Lp & _). eauto.
    + clear - HP. induction HP as [|row p M P (v & _ & _ & _ & B) HP IH]; constructor; auto.
Qed.
