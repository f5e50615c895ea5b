(** [l.index(max(l))] returns the first largest element. *)
From Coq Require Import Lia.
From Verif Require Import Model.Py Model.Arith Spec.Matrix Proofs.Lib Proofs.Laws Proofs.Unit.

Section Argmax.
  Context {A : arith} (OK : ord_ok A).

  Lemma isnan_eqb : forall x : A, isnan x = false -> eqb x x = true.
  Proof. intros x H. rewrite (o_nan _ OK) in H. apply negb_false_iff in H; auto. Qed.
  Lemma eqb_nan : forall x y : A, eqb x y = true -> isnan x = false /\ isnan y = false.
  Proof. intros x y H. apply (leb_nan OK). rewrite (o_leb _ OK), H. apply orb_true_r. Qed.
  Lemma nan_ltb_l : forall x y : A, isnan x = true -> ltb x y = false.
  Proof. intros x y H. destruct (ltb x y) eqn:E; auto. apply (o_lt_nan _ OK) in E. destruct E; congruence. Qed.
  Lemma nan_ltb_r : forall x y : A, isnan y = true -> ltb x y = false.
  Proof. intros x y H. destruct (ltb x y) eqn:E; auto. apply (o_lt_nan _ OK) in E. destruct E; congruence. Qed.

  Lemma pymax_from_nan : forall l (h : A), isnan h = true -> pymax_from gtb h l = h.
  Proof.
    induction l as [|x l IH]; intros h H; simpl; auto.
    change (gtb x h) with (ltb h x). rewrite nan_ltb_l by auto. auto.
  Qed.

  Lemma pymax_from_spec : forall l (h : A), isnan h = false ->
    let v := pymax_from gtb h l in
    isnan v = false /\ In v (h :: l) /\ (forall w, In w (h :: l) -> ltb v w = false).
  Proof.
    induction l as [|x l IH]; intros h H; simpl.
    - repeat split; auto. intros w [<-|[]]. apply (o_irr _ OK).
    - change (gtb x h) with (ltb h x). destruct (ltb h x) eqn:E.
      + destruct (o_lt_nan _ OK _ _ E) as [_ Nx]. destruct (IH x Nx) as (N & I & M).
        repeat split; auto. intros w [<-|Hw]; [|apply M; auto].
        specialize (M x (or_introl eq_refl)).
        destruct (ltb (pymax_from gtb x l) h) eqn:F; auto.
        rewrite (o_trans _ OK _ _ _ F E) in M. discriminate.
      + destruct (IH h H) as (N & I & M). repeat split; auto.
        * destruct I; auto.
        * intros w [<-|[<-|Hw]]; [apply M; simpl; auto | | apply M; simpl; auto].
          apply (nltb_trans OK) with h; auto. apply M; simpl; auto.
  Qed.

  Lemma argmax_best : forall (l : list A) i, argmax l = Ok i -> best l i.
  Proof.
    intros [|h t] i H; [discriminate|]. unfold argmax in H. simpl in H. unfold list_index in H.
    destruct (isnan h) eqn:Nh.
    - left. rewrite pymax_from_nan in H by auto.
      cbn [index_of] in H. unfold same in H at 1. rewrite Nh in H.
      rewrite orb_true_r in H. inversion H; subst. exists h, t; auto.
    - right. destruct (pymax_from_spec t h Nh) as (N & I & M).
      set (v := pymax_from gtb h t) in *.
      destruct (index_of same v (h :: t)) as [n|] eqn:E; inversion H; subst n.
      apply index_of_some in E. destruct E as (x & Hx & Ex & Hm).
      unfold same in Ex. rewrite N, andb_false_r, orb_false_r in Ex.
      exists h, t, x. repeat split; auto.
      + apply (eqb_nan _ _ Ex).
      + intros j w Hw. rewrite (o_eq_lt_l _ OK _ _ _ Ex). apply M. eapply nth_error_In; eauto.
      + intros j w Hj Hw. destruct (isnan w) eqn:Nw; auto. left.
        specialize (Hm _ _ Hj Hw). unfold same in Hm. rewrite N, andb_false_r, orb_false_r in Hm.
        rewrite (o_eq_lt_r _ OK _ _ _ Ex).
        destruct (o_total _ OK w v Nw N) as [T|[T|T]]; auto; [congruence|].
        rewrite M in T; [discriminate|]. eapply nth_error_In; eauto.
  Qed.

  Lemma argmax_total : forall l : list A, l <> [] -> exists i, argmax l = Ok i.
  Proof.
    intros [|h t] H; [congruence|]. unfold argmax. simpl. unfold list_index.
    destruct (index_of same (pymax_from gtb h t) (h :: t)) eqn:E; eauto.
    exfalso. rewrite index_of_none in E. destruct (isnan h) eqn:Nh.
    - rewrite pymax_from_nan in E by auto. specialize (E h (or_introl eq_refl)).
      unfold same in E. rewrite Nh, orb_true_r in E. discriminate.
    - destruct (pymax_from_spec t h Nh) as (N & I & M). specialize (E _ I).
      unfold same in E. rewrite isnan_eqb in E by auto. discriminate.
  Qed.

  Lemma best_unique : forall (l : list A) i j, best l i -> best l j -> i = j.
  Proof.
    intros l i j [(v & t & -> & Nv & ->) | (h & t & v & -> & Nh & Hv & Nv & M & F)]
                 [(v' & t' & E & Nv' & ->) | (h' & t' & v' & E & Nh' & Hv' & Nv' & M' & F')]; auto;
      try (inversion E; subst; congruence).
    destruct (Nat.lt_trichotomy i j) as [T|[T|T]]; auto; exfalso.
    - destruct (F' _ _ T Hv) as [Q|Q]; [|congruence]. rewrite (M _ _ Hv') in Q. discriminate.
    - destruct (F _ _ T Hv') as [Q|Q]; [|congruence]. rewrite (M' _ _ Hv) in Q. discriminate.
  Qed.

  Lemma argmax_iff : forall (l : list A) i, argmax l = Ok i <-> best l i.
  Proof.
    intros l i. split; [apply argmax_best|]. intro B.
    assert (N : l <> []) by (destruct B as [(v & t & -> & _) | (h & t & v & -> & _)]; discriminate).
    destruct (argmax_total l N) as [j E]. rewrite E. f_equal.
    eapply best_unique; eauto. apply argmax_best; auto.
  Qed.

  (** The index is valid. *)
  Lemma best_lt : forall (l : list A) i, best l i -> i < length l.
  Proof.
    intros l i [(v & t & -> & Nv & ->) | (h & t & v & -> & Nh & Hv & _)]; [simpl; lia|].
    apply nth_error_Some. congruence.
  Qed.

  (** Without NaN, [best] is [first_max]. *)
  Lemma best_first_max : forall (l : list A) i, Forall (fun x => isnan x = false) l ->
    (best l i <-> first_max l i).
  Proof.
    intros l i H. rewrite Forall_forall in H. split.
    - intros [(v & t & -> & Nv & ->) | (h & t & v & -> & Nh & Hv & Nv & M & F)].
      + rewrite (H v) in Nv by (simpl; auto). discriminate.
      + exists v. repeat split; auto. intros j w Hj Hw. destruct (F _ _ Hj Hw); auto.
        rewrite (H w) in H0 by (eapply nth_error_In; eauto). discriminate.
    - intros (v & Hv & M & F). right. destruct l as [|h t]; [destruct i; discriminate|].
      exists h, t, v. repeat split; auto.
      + apply H; simpl; auto.
      + apply H. eapply nth_error_In; eauto.
      + intros j w Hj Hw. left. eauto.
  Qed.

  Lemma argmax_first_max : forall (l : list A) i, Forall (fun x => isnan x = false) l ->
    (argmax l = Ok i <-> first_max l i).
  Proof. intros. rewrite argmax_iff. apply best_first_max; auto. Qed.

  Lemma argmax_empty : argmax (A:=A) [] = Err ValueError. Proof. reflexivity. Qed.
End Argmax.

(** Turning rows of scores into labels. *)
Lemma pick_ok : forall {A : arith} {L} (cl : list L), ord_ok A -> forall (P : list (list A)) out,
  mapM (fun a => i <- argmax a ;; lnth cl i) P = Ok out <->
  Forall2 (fun p y => exists i, best p i /\ nth_error cl i = Some y) P out.
Proof.
  intros A L cl OK P out. rewrite mapM_Forall2. apply Forall2_iff. intros p y. split.
  - intro H. inv_bind H. apply (argmax_iff OK) in E. apply lnth_ok in H. eauto.
  - intros (i & B & Y). apply (argmax_iff OK) in B. rewrite B. cbn [bind]. apply lnth_ok. auto.
Qed.

(** In exact arithmetic, on finite numbers. *)
From Coq Require Import Reals Lra.
From Verif Require Import Model.XR Spec.Reals.
Local Open Scope R_scope.
Lemma nth_fins : forall l i, nth_error (fins l) i = option_map (fun r => XFin r : XR) (nth_error l i).
Proof. intros. unfold fins. apply nth_error_map'. Qed.
Lemma best_fins : forall l i, best (fins l) i <-> Rargmax l i.
Proof.
  intros l i. split.
  - intros [(v & t & E & N & _)|(h & t & v & E & N & Hi & Nv & HA & HB)].
    + destruct l; [discriminate|]. inversion E; subst. discriminate.
    + rewrite nth_fins in Hi. destruct (nth_error l i) as [x|] eqn:Ex; [|discriminate]. inversion Hi; subst v.
      exists x. split; auto. split.
      * intros j w Hj. specialize (HA j (XFin w)). rewrite nth_fins, Hj in HA. specialize (HA eq_refl). simpl in HA.
        apply Rnot_lt_le. intro C. apply Rltb_lt in C. congruence.
      * intros j w Lj Hj. specialize (HB j (XFin w) Lj). rewrite nth_fins, Hj in HB.
        destruct (HB eq_refl) as [C|C]; [|discriminate]. simpl in C. apply Rltb_lt. auto.
  - intros (v & Hi & HA & HB). right. destruct l as [|h t]; [destruct i; discriminate|].
    exists (XFin h), (fins t), (XFin v). split; auto. split; auto. split; [rewrite nth_fins, Hi; auto|]. split; auto. split.
    + intros j w Hj. rewrite nth_fins in Hj. destruct (nth_error (h :: t) j) as [x|] eqn:Ex; [|discriminate].
      inversion Hj; subst w. specialize (HA j x Ex). simpl. apply not_true_iff_false. rewrite Rltb_lt. lra.
    + intros j w Lj Hj. left. rewrite nth_fins in Hj. destruct (nth_error (h :: t) j) as [x|] eqn:Ex; [|discriminate].
      inversion Hj; subst w. simpl. apply Rltb_lt. eauto.
Qed.
Lemma Rargmax_map : forall f l i, (forall a b, a < b -> f a < f b) -> Rargmax (map f l) i <-> Rargmax l i.
Proof.
  intros f l i M. assert (M' : forall a b, f a < f b -> a < b).
  { intros a b H. destruct (Rlt_or_le a b) as [|[C|C]]; auto; [apply M in C; lra|subst; lra]. }
  split; intros (v & Hi & HA & HB).
  - rewrite nth_error_map' in Hi. destruct (nth_error l i) as [x|] eqn:Ex; [|discriminate]. inversion Hi; subst v. exists x.
    split; auto. split.
    + intros j w Hj. specialize (HA j (f w)). rewrite nth_error_map', Hj in HA. specialize (HA eq_refl).
      apply Rnot_lt_le. intro C. apply M in C. lra.
    + intros j w Lj Hj. apply M'. apply (HB j); auto. rewrite nth_error_map', Hj. auto.
  - exists (f v). split; [rewrite nth_error_map', Hi; auto|]. split.
    + intros j w Hj. rewrite nth_error_map' in Hj. destruct (nth_error l j) as [x|] eqn:Ex; [|discriminate].
      inversion Hj. specialize (HA j x Ex). apply Rnot_lt_le. intro C. apply M' in C. lra.
    + intros j w Lj Hj. rewrite nth_error_map' in Hj. destruct (nth_error l j) as [x|] eqn:Ex; [|discriminate].
      inversion Hj. apply M. eauto.
Qed.
Lemma Rargmax_softmax : forall l i, Rargmax (softmax l) i <-> Rargmax l i.
Proof.
  intros l i. destruct l as [|x l]; [split; intros (v & E & _); destruct i; discriminate|].
  unfold softmax. set (s := Rsum (map exp (x :: l))).
  assert (S : 0 < s). { unfold s. simpl. pose proof (exp_pos x).
    assert (0 <= Rsum (map exp l)); [|lra]. clear. induction l; simpl; [lra|]. pose proof (exp_pos a). lra. }
  apply (Rargmax_map (fun a => exp a / s)). intros a b H. apply Rmult_lt_compat_r; [apply Rinv_0_lt_compat; auto|].
  apply exp_increasing. auto.
Qed.
Lemma Rargmax_two : forall a b i, Rargmax [a; b] i <-> i = (if Rlt_dec a b then 1 else 0)%nat.
Proof.
  intros a b i. split.
  - intros (v & Hi & HA & HB). destruct i as [|[|[|i]]]; try discriminate; simpl in Hi; inversion Hi; subst v.
    + specialize (HA 1%nat b eq_refl). destruct (Rlt_dec a b); [lra|auto].
    + specialize (HB 0%nat a ltac:(auto) eq_refl). destruct (Rlt_dec a b); [auto|lra].
  - intros ->. destruct (Rlt_dec a b); [exists b|exists a]; (split; [auto|split]); intros [|[|j]] w; simpl;
      try (intros E; inversion E; lra); try (intros H E; inversion E; lra); try (destruct j; discriminate); try (intro; destruct j; discriminate); try lia.
Qed.
