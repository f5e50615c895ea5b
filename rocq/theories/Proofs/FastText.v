(** Proofs for C54-C58. *)
From Coq Require Import String Reals Lia Lra Sorted Permutation.
From Flocq Require Import Core BinarySingleNaN.
From Verif Require Import Model.Py Model.Arith Model.F64 Model.XR Model.Utils Model.Base Model.Text Model.FastText.
From Verif Require Import Spec.Matrix Spec.Reals Spec.Libm Spec.Text Spec.FastText.
From Verif Require Import Proofs.Lib Proofs.Laws Proofs.Round Proofs.Unit Proofs.Arrays Proofs.Arrays2 Proofs.RealLib Proofs.Argmax Proofs.Ensemble Proofs.LinearProba Proofs.Text.
Local Open Scope nat_scope.

Lemma index_position : forall w ws, match index_of str_eqb w ws with Some i => position w ws i | None => ~ In w ws end.
Proof.
  intros w ws; induction ws as [|x ws IH]; [intros []|]. cbn [index_of]. destruct (str_eqb x w) eqn:E.
  - apply str_eqb_ok in E. subst. split; [auto|intros j Hj; lia].
  - assert (N : x <> w) by (intros ->; rewrite str_eqb_refl in E; discriminate). destruct (index_of str_eqb w ws) as [i|]; cbn [option_map].
    + destruct IH as [I1 I2]. split; auto. intros [|j] Hj; [cbn; congruence|]. apply I2. lia.
    + intros [|]; auto.
Qed.
Lemma position_In : forall w ws i, position w ws i -> In w ws.
Proof. intros w ws i [H _]. eapply nth_error_In; eauto. Qed.
Lemma position_fun : forall w ws i j, position w ws i -> position w ws j -> i = j.
Proof.
  intros w ws i j [H1 H2] [H3 H4]. destruct (Nat.lt_trichotomy i j) as [L|[L|L]]; auto; [destruct (H4 _ L H1)|destruct (H2 _ L H3)].
Qed.
Lemma restricted_filter : forall vocab ws ks, restricted vocab ws ks -> filter (fun w => mem str_eqb w vocab) ws = ks.
Proof.
  intros vocab ws ks H; induction H as [|w ws ks I H IH|w ws ks I H IH]; auto; cbn [filter].
  - rewrite (proj2 (mem_in str_eqb str_eqb_ok w vocab) I). congruence.
  - destruct (mem str_eqb w vocab) eqn:E; auto. apply (mem_in str_eqb str_eqb_ok) in E. contradiction.
Qed.
Lemma restricted_filter' : forall vocab ws, restricted vocab ws (filter (fun w => mem str_eqb w vocab) ws).
Proof.
  intros vocab ws; induction ws as [|w ws IH]; [constructor|]. cbn [filter]. destruct (mem str_eqb w vocab) eqn:E.
  - constructor; auto. apply (mem_in str_eqb str_eqb_ok); auto.
  - constructor; auto. intro I. apply (mem_in str_eqb str_eqb_ok) in I. congruence.
Qed.

Lemma split_trailing : forall U s cur, x_space U 10 = true -> split_ws U cur (s ++ [10%Z]) = split_ws U cur s.
Proof.
  intros U s; induction s as [|c s IH]; intros cur E; cbn [app split_ws].
  - rewrite E. destruct cur; auto.
  - destruct (x_space U c); [destruct cur; rewrite IH; auto|]. apply IH; auto.
Qed.

Section A.
  Context {A : arith}.
  Variable U : textlib.

  Lemma word_id : forall (f : fasttext A) w i, position w (f_words f) i -> get_word_id f w = Z.of_nat i.
  Proof.
    intros f w i H. unfold get_word_id. pose proof (index_position w (f_words f)) as Q. destruct (index_of str_eqb w (f_words f)) as [j|].
    - rewrite (position_fun _ _ _ _ H Q). auto.
    - destruct Q. eapply position_In; eauto.
  Qed.
  Lemma word_vector : forall (f : fasttext A) w v, vector_of (f_words f) (f_input f) w v -> get_word_vector f w = Ok v.
  Proof.
    intros f w v (i & P & E). unfold get_word_vector. rewrite (word_id f w i P). destruct (Z.leb_spec 0 (Z.of_nat i)); [|lia].
    unfold get_input_vector, lget. destruct (Z.ltb_spec (Z.of_nat i) 0); [lia|]. rewrite Nat2Z.id. unfold lnth. rewrite E. assert (i < length (f_input f)) by (apply nth_error_Some; congruence). destruct (Z.leb_spec 0 (Z.of_nat i)), (Z.ltb_spec (Z.of_nat i) (Z.of_nat (length (f_input f)))); auto; lia.
  Qed.

  Lemma average_nil : average (A:=A) [] = Ok [].
  Proof. reflexivity. Qed.
  Lemma average_iff : forall (vs : list (list A)) n dim out, rect vs n dim -> 1 <= n -> (average vs = Ok out <-> averaged vs dim out).
  Proof.
    intros vs n dim out R Hn. unfold average. destruct (zipstar_nth vs n dim R Hn) as [[LZ RZ] CZ]. destruct R as [L R].
    assert (COL : forall j c, nth_error (zipstar vs) j = Some c -> Forall2 (fun v x => nth_error v j = Some x) vs c).
    { intros j c Hc. assert (Hj : j < dim) by (rewrite <- LZ; apply nth_error_Some; congruence).
      apply Forall2_nth_error. split.
      - rewrite Forall_forall in RZ. rewrite (RZ c); auto. eapply nth_error_In; eauto.
      - intros i v x Hv Hx. assert (Hi : i < n) by (rewrite <- L; apply nth_error_Some; congruence).
        specialize (CZ i j Hi Hj). unfold cell in CZ. rewrite Hc, Hv in CZ. congruence. }
    assert (FUN : forall j (c c' : list A), Forall2 (fun v x => nth_error v j = Some x) vs c -> Forall2 (fun v x => nth_error v j = Some x) vs c' -> c = c').
    { clear. intros j c c' H; revert c'. induction H as [|v x w c E H IH]; intros c' H'; inversion H'; subst; auto. f_equal; [congruence|]. apply IH; auto. }
    split.
    - intro H. pose proof (mapM_length _ _ _ H) as Lo. split; [lia|]. intros j x Hx. destruct (mapM_nth_inv _ _ _ _ _ H Hx) as (c & Hc & D). exists c. split; auto.
    - intros [Lo H]. apply mapM_Forall2. apply Forall2_nth_error. split; [lia|]. intros j c x Hc Hx. destruct (H j x Hx) as (c' & Hc' & D). rewrite (FUN j c c'); auto.
  Qed.
  Lemma div_norm_iff : forall v u : list A, div_norm v = Ok u <-> unit_row v u.
  Proof.
    intros v u. unfold div_norm, l2_norm, unit_row, norm_of. change (gtb (A:=A)) with (fun x y : A => ltb y x). split.
    - intro H. inv_bind H. inv_bind E. apply mapM_Forall2 in E0. exists a. split; [eauto|]. destruct (ltb zero a) eqn:P.
      + split; [|discriminate]. intros _. destruct v as [|x v]; [injection H as <-; exists a; split; [congruence|auto]|].
        cbn [mapM] in H. destruct (div one a) as [r|]; [|discriminate]. exists r. split; auto. cbn [bind] in H.
        rewrite (mapM_Ok (fun x => mul x r)) in H. cbn [bind] in H. injection H as <-. reflexivity.
      + split; [discriminate|]. intros _. congruence.
    - intros (n & (qs & HQ & E) & H1 & H2). apply mapM_Forall2 in HQ. rewrite HQ. cbn [bind]. rewrite E. cbn [bind]. destruct (ltb zero n).
      + destruct (H1 eq_refl) as (r & Hr & ->). destruct v as [|x v]; [auto|]. rewrite Hr by discriminate. cbn [mapM bind]. rewrite (mapM_Ok (fun x => mul x r)). auto.
      + rewrite H2; auto.
  Qed.

  (** * argsort *)
  Hypothesis OK : ord_ok A.
  Definition before (x y : A * nat) : Prop := leb (fst x) (fst y) = true /\ (ltb (fst x) (fst y) = false -> snd x < snd y).
  Lemma insert_perm : forall (x : A * nat) l, Permutation (insert_idx x l) (x :: l).
  Proof.
    intros x l; induction l as [|y l IH]; auto. cbn [insert_idx]. destruct (ltb (fst x) (fst y)); auto.
    rewrite IH. constructor.
  Qed.
  Lemma insert_sorted : forall (x : A * nat) l, isnan (fst x) = false -> Forall (fun y => isnan (fst y) = false /\ snd y < snd x) l ->
    StronglySorted before l -> StronglySorted before (insert_idx x l).
  Proof.
    intros x l N F H; induction H as [|y l H IH B]; [repeat constructor|]. inversion F as [|? ? [Ny Hy] F']; subst. cbn [insert_idx]. destruct (ltb (fst x) (fst y)) eqn:E.
    - constructor; [constructor; auto|]. constructor; [split; [apply (ltb_leb OK); auto|congruence]|].
      eapply Forall_impl; [|exact B]. intros z [Bz _]. assert (Q : ltb (fst x) (fst z) = true) by (eapply (ltb_leb_trans OK); eauto). split; [apply (ltb_leb OK); auto|congruence].
    - constructor; auto. eapply Permutation_Forall; [symmetry; apply insert_perm|]. constructor; auto. split; [apply (nltb_leb OK); auto|]. auto.
  Qed.
  Lemma argsort_sorted : forall l : list A, Forall (fun x => isnan x = false) l ->
    exists ps, argsort l = map snd ps /\ Permutation ps (combine l (range (length l))) /\ StronglySorted before ps.
  Proof.
    intros l N. exists (fold_left (fun acc x => insert_idx x acc) (combine l (range (length l))) []). split; [reflexivity|].
    assert (G : forall l b acc, Forall (fun x : A => isnan x = false) l -> Forall (fun y : A * nat => isnan (fst y) = false /\ snd y < b) acc -> StronglySorted before acc ->
      let r := fold_left (fun acc x => insert_idx x acc) (combine l (seq b (length l))) acc in Permutation r (acc ++ combine l (seq b (length l))) /\ StronglySorted before r).
    { clear l N. induction l as [|x l IH]; intros b acc N F S; cbn [combine seq length fold_left]; [rewrite app_nil_r; auto|].
      inversion N; subst. destruct (IH (Datatypes.S b) (insert_idx (x, b) acc)) as [P Q]; auto.
      - eapply Permutation_Forall; [symmetry; apply insert_perm|]. constructor; [cbn; auto|]. eapply Forall_impl; [|exact F]. cbn. intros y [? ?]. split; auto.
      - apply insert_sorted; auto.
      - split; auto. rewrite P. rewrite insert_perm. cbn [app]. apply Permutation_middle. }
    destruct (G l 0 [] N) as [P Q]; constructor; auto.
  Qed.

  Lemma sorted_nth : forall (R : A * nat -> A * nat -> Prop) l, StronglySorted R l -> forall a b x y, a < b -> nth_error l a = Some x -> nth_error l b = Some y -> R x y.
  Proof.
    intros R l H; induction H as [|z l H IH F]; intros a b x y L Ha Hb; [destruct a; discriminate|].
    destruct b as [|b]; [lia|]. destruct a as [|a]; cbn [nth_error] in *.
    - injection Ha as <-. rewrite Forall_forall in F. apply F. eapply nth_error_In; eauto.
    - apply (IH a b); auto. lia.
  Qed.
  Lemma sorted_rev : forall (R : A * nat -> A * nat -> Prop) l, StronglySorted R l -> StronglySorted (fun x y => R y x) (rev l).
  Proof.
    intros R l H; induction H as [|z l H IH F]; [constructor|]. cbn [rev]. assert (G : forall u, StronglySorted (fun x y => R y x) u -> Forall (R z) u -> StronglySorted (fun x y => R y x) (u ++ [z])).
    { clear. intros u H; induction H as [|y u H IH F]; intro G; [repeat constructor|]. inversion G; subst. cbn [app]. constructor; auto. apply Forall_app. auto. }
    apply G; auto. apply Forall_forall. intros x Hx. apply in_rev in Hx. rewrite Forall_forall in F. auto.
  Qed.
  Lemma sorted_filter : forall (R : A * nat -> A * nat -> Prop) (g : A * nat -> bool) l, StronglySorted R l -> StronglySorted R (filter g l).
  Proof.
    intros R g l H; induction H as [|z l H IH F]; [constructor|]. cbn [filter]. destruct (g z); auto. constructor; auto.
    apply Forall_forall. intros x Hx. apply filter_In in Hx. rewrite Forall_forall in F. apply F. tauto.
  Qed.
  Lemma combine_range_nth : forall (p : list A) x i, In (x, i) (combine p (range (length p))) <-> nth_error p i = Some x.
  Proof.
    intros p x i. unfold range. assert (G : forall p b, In (x, i) (combine p (seq b (length p))) <-> b <= i /\ nth_error p (i - b) = Some x).
    { clear. induction p as [|y p IH]; intro b; cbn [length seq combine].
      - split; [intros []|]. intros [_ H]. destruct (i - b); discriminate.
      - cbn [In]. rewrite IH. split.
        + intros [H|[L H]]; [injection H as -> ->; rewrite Nat.sub_diag; auto|]. split; [lia|]. replace (i - b) with (S (i - S b)) by lia. auto.
        + intros [L H]. destruct (Nat.eq_dec i b) as [->|N]; [left; rewrite Nat.sub_diag in H; cbn in H; congruence|]. right. split; [lia|]. replace (i - b) with (S (i - S b)) in H by lia. auto. }
    rewrite G, Nat.sub_0_r. split; [tauto|]. split; [lia|auto].
  Qed.

  (** The indices kept by the threshold, best first. *)
  Lemma ranked : forall (p : list A) thr, Forall (fun x => isnan x = false) p -> exists qs : list (A * nat),
    mapM (fun i => x <- lnth p i ;; Ok (i, geb x thr)) (rev (argsort p)) = Ok (map (fun q => (snd q, leb thr (fst q))) qs) /\
    StronglySorted (fun x y => before y x) qs /\ NoDup (map snd qs) /\ (forall x i, In (x, i) qs <-> nth_error p i = Some x).
  Proof.
    intros p thr N. destruct (argsort_sorted p N) as (ps & E & P & S). exists (rev ps).
    assert (IN : forall x i, In (x, i) (rev ps) <-> nth_error p i = Some x).
    { intros x i. rewrite <- in_rev. rewrite <- combine_range_nth. split; apply Permutation_in; [|symmetry]; auto. }
    split; [|split; [apply sorted_rev; auto|split; auto]].
    - rewrite E, <- map_rev, mapM_map. apply (mapM_pure _ (fun q : A * nat => (snd q, leb thr (fst q)))). intros [x i] Hx. apply IN in Hx. cbn [snd fst]. unfold lnth. rewrite Hx. reflexivity.
    - rewrite map_rev. apply NoDup_rev. eapply Permutation_NoDup; [symmetry; apply Permutation_map, P|].
      assert (Q : map snd (combine p (range (length p))) = range (length p)).
      { unfold range. clear. generalize 0. induction p as [|x p IH]; intro b; auto. cbn [length seq combine map snd]. f_equal. apply IH. }
      rewrite Q. unfold range. apply seq_NoDup.
  Qed.

  Lemma kept_idx : forall (qs : list (A * nat)) thr, map fst (filter snd (map (fun q => (snd q, leb thr (fst q))) qs)) = map snd (filter (fun q => leb thr (fst q)) qs).
  Proof. intros qs thr; induction qs as [|q qs IH]; auto. cbn [map filter snd fst]. destruct (leb thr (fst q)); cbn [map]; rewrite IH; auto. Qed.

  Lemma firstn_nth : forall {T} (l : list T) k a x, nth_error (firstn k l) a = Some x <-> a < k /\ nth_error l a = Some x.
  Proof.
    intros T l; induction l as [|y l IH]; intros [|k] [|a] x; cbn [firstn nth_error]; split; try (intros; discriminate); try (intros [? ?]; discriminate); try (intros [? ?]; lia); auto; try (split; auto; lia).
    - tauto.
    - rewrite IH. intros [? ?]. split; auto; lia.
    - intros [? ?]. apply IH. split; auto; lia.
  Qed.
  Lemma top_k_ok : forall (p : list A) thr k (qs : list (A * nat)), StronglySorted (fun x y => before y x) qs -> NoDup (map snd qs) -> (forall x i, In (x, i) qs <-> nth_error p i = Some x) ->
    top_k p thr k (firstn k (map snd (filter (fun q => leb thr (fst q)) qs))).
  Proof.
    intros p thr k qs S ND IN. set (ks := filter (fun q => leb thr (fst q)) qs).
    assert (SK : StronglySorted (fun x y => before y x) ks) by (apply sorted_filter; auto).
    assert (IK : forall x i, In (x, i) ks <-> nth_error p i = Some x /\ leb thr x = true).
    { intros x i. unfold ks. rewrite filter_In, IN. cbn [fst]. tauto. }
    assert (NK : NoDup (map snd ks)).
    { unfold ks. clear -ND. induction qs as [|q qs IH]; auto. cbn [map] in ND. inversion ND; subst. cbn [filter]. destruct (leb thr (fst q)); auto. cbn [map]. constructor; auto.
      intro H. apply H1. apply in_map_iff in H. destruct H as (y & E & Hy). apply filter_In in Hy. apply in_map_iff. exists y. tauto. }
    assert (NTH : forall a i, nth_error (firstn k (map snd ks)) a = Some i -> a < k /\ exists x, nth_error ks a = Some (x, i)).
    { intros a i H. apply firstn_nth in H. destruct H as [L H]. rewrite nth_error_map' in H. destruct (nth_error ks a) as [[x j]|]; [|discriminate]. cbn in H. injection H as ->. eauto. }
    split; [|split; [|split; [|split]]].
    - clear -NK. revert k. induction NK as [|x l I N IH]; intros [|k]; cbn [firstn]; constructor; auto. intro H. apply I. revert H. clear. revert k. induction l as [|y l IH]; intros [|k]; cbn [firstn In]; intuition eauto.
    - apply firstn_le_length.
    - intros i Hi. apply In_nth_error in Hi. destruct Hi as [a Ha]. destruct (NTH _ _ Ha) as (_ & x & Hx). exists x. apply IK. eapply nth_error_In; eauto.
    - intros a b i j x y L Ha Hb Hx Hy. destruct (NTH _ _ Ha) as (_ & x' & Hx'). destruct (NTH _ _ Hb) as (_ & y' & Hy').
      pose proof (nth_error_In _ _ Hx') as I1. pose proof (nth_error_In _ _ Hy') as I2. apply IK in I1, I2. destruct I1, I2. assert (x' = x) by congruence. assert (y' = y) by congruence. subst.
      destruct (sorted_nth _ _ SK a b _ _ L Hx' Hy') as [Q _]. exact Q.
    - intros j y Hy Ty NI. assert (IJ : In (y, j) ks) by (apply IK; auto). apply In_nth_error in IJ. destruct IJ as [b Hb].
      assert (L : k <= b). { destruct (Nat.lt_ge_cases b k); auto. exfalso. apply NI. apply (nth_error_In _ b). apply firstn_nth. split; auto. rewrite nth_error_map', Hb. auto. }
      assert (Lb : b < length ks) by (apply nth_error_Some; congruence). split; [rewrite firstn_length, map_length; lia|].
      intros i x Hi Hx. apply In_nth_error in Hi. destruct Hi as [a Ha]. destruct (NTH _ _ Ha) as (La & x' & Hx'). pose proof (nth_error_In _ _ Hx') as I1. apply IK in I1. assert (x' = x) by (destruct I1; congruence). subst.
      destruct (sorted_nth _ _ SK a b _ _ ltac:(lia) Hx' Hb) as [Q _]. exact Q.
  Qed.
  Lemma ties_ok : forall (p : list A) thr (qs : list (A * nat)), StronglySorted (fun x y => before y x) qs -> (forall x i, In (x, i) qs <-> nth_error p i = Some x) ->
    forall a b i j x y, a < b -> nth_error (map snd (filter (fun q => leb thr (fst q)) qs)) a = Some i -> nth_error (map snd (filter (fun q => leb thr (fst q)) qs)) b = Some j ->
      nth_error p i = Some x -> nth_error p j = Some y -> ltb y x = false -> j < i.
  Proof.
    intros p thr qs S IN a b i j x y L Ha Hb Hx Hy N. rewrite nth_error_map' in Ha, Hb. set (ks := filter (fun q => leb thr (fst q)) qs) in *.
    destruct (nth_error ks a) as [[x' i']|] eqn:Ea; [|discriminate]. destruct (nth_error ks b) as [[y' j']|] eqn:Eb; [|discriminate]. cbn in Ha, Hb. injection Ha as ->. injection Hb as ->.
    destruct (sorted_nth _ _ (sorted_filter _ _ _ S) a b _ _ L Ea Eb) as [_ Q]. apply Q. cbn [fst].
    pose proof (nth_error_In _ _ Ea) as I1. pose proof (nth_error_In _ _ Eb) as I2. apply filter_In in I1, I2. destruct I1 as [I1 _], I2 as [I2 _]. apply IN in I1, I2. congruence.
  Qed.
End A.

(** * softmax *)
Section S.
  Variable m : libm.
  Notation F := (F64 m).
  Lemma pymax_max : forall l : list F, l <> [] -> Forall (fun x => isnan x = false) l ->
    exists v, pymax gtb l = Ok v /\ In v l /\ isnan v = false /\ forall w, In w l -> leb w v = true.
  Proof.
    intros [|h t] N H; [congruence|]. inversion H as [|? ? Nh Nt]; subst. destruct (pymax_from_spec (F64_ord m) t h Nh) as (Q & I & M).
    exists (pymax_from gtb h t). split; [reflexivity|]. split; auto. split; auto. intros w Hw. apply (nltb_leb (F64_ord m)); auto. rewrite Forall_forall in H. apply H. auto.
  Qed.
  Lemma sub_self : forall mx : f64, is_finite mx = true -> exists sg, f_sub mx mx = B754_zero sg.
  Proof.
    intros mx Fm. assert (V : b2x (f_sub mx mx) = XFin 0).
    { rewrite f_sub_x, (b2x_fin mx Fm). replace (x_sub (XFin (B2R mx)) (XFin (B2R mx))) with (XFin 0) by (unfold x_sub; simpl; f_equal; ring). exact (xround_b2x (B754_zero false)). }
    destruct (f_sub mx mx) as [sg|[]| |sg mm ee He0]; try discriminate V; [eauto|]. exfalso. injection V as V. apply eq_0_F2R in V. destruct sg; discriminate.
  Qed.
  Lemma shifted_exp : exp_le1 m -> forall x mx : F, is_finite x = true -> is_finite mx = true -> leb x mx = true ->
    exists e, expv (sub x mx) = Ok e /\ leb zero e = true /\ leb e one = true.
  Proof.
    intros HL x mx Fx Fm H. pose proof (sub_mono m mx x mx Fm H) as S. f64.
    destruct (sub_self mx Fm) as [sg Z].
    rewrite Z in S. set (d := f_sub x mx) in *.
    assert (ND : is_nan d = false) by (rewrite f_leb_x in S; rewrite f_nan_x; destruct (b2x d); auto; discriminate).
    assert (FIN : is_finite d = true -> exists e, f_exp m d = Ok e /\ f_leb (f_ofZE 0 0) e = true /\ f_leb e (f_ofZE 1 0) = true).
    { intro Fd. rewrite f_leb_x, (b2x_fin d Fd) in S. change (b2x (B754_zero sg)) with (XFin 0) in S. cbn [x_leb] in S. apply Rleb_le in S.
      destruct (HL d Fd S) as (y & E & Fy & Y0 & Y1). exists y. rewrite !f_leb_x, b2x_zero, b2x_one, (b2x_fin y Fy). cbn [x_leb]. split; [|split; apply Rleb_le; auto].
      unfold f_exp. destruct d; try discriminate; rewrite E; auto. }
    destruct d as [s|s| |s mm e He] eqn:Ed; try (apply FIN; reflexivity); try discriminate.
    destruct s; [|rewrite f_leb_x in S; discriminate]. exists (f_ofZE 0 0). split; [reflexivity|]. rewrite !f_leb_x, b2x_zero, b2x_one. cbn [x_leb]. split; apply Rleb_le; lra.
  Qed.
  Lemma ft_sfmax_unit : exp_le1 m -> exp_at_0 m -> forall s : list F, s <> [] -> Forall (fun x => is_finite x = true) s -> (Z.of_nat (length s) <= 2 ^ 53)%Z ->
    exists p, ft_sfmax s = Ok p /\ shifted_softmax s p /\ length p = length s /\ Forall (fun q => leb zero q = true /\ leb q one = true) p.
  Proof.
    intros HL H0 s N FS HB.
    assert (NN : Forall (fun x : F => isnan x = false) s) by (eapply Forall_impl; [|exact FS]; intros x Hx; apply fin_not_nan; exact Hx).
    destruct (pymax_max s N NN) as (mx & Em & Im & Nm & Mx).
    assert (Fm : is_finite mx = true) by (rewrite Forall_forall in FS; apply FS; auto).
    destruct (mapM_total (fun x : F => expv (sub x mx)) s) as [es Ees].
    { intros x Hx. rewrite Forall_forall in FS. destruct (shifted_exp HL x mx (FS x Hx) Fm (Mx x Hx)) as (e & E & _). eauto. }
    assert (F2 : Forall2 (fun x e => expv (sub x mx) = Ok e) s es) by (apply mapM_Forall2; auto).
    assert (UE : Forall (fun e : F => leb zero e = true /\ leb e one = true) es).
    { apply Forall_forall. intros e He. apply In_nth_error in He. destruct He as [i Hi]. destruct (mapM_nth_inv _ _ _ _ _ Ees Hi) as (x & Hx & E). apply nth_error_In in Hx.
      rewrite Forall_forall in FS. destruct (shifted_exp HL x mx (FS x Hx) Fm (Mx x Hx)) as (e' & E' & Q). rewrite E' in E. injection E as <-. auto. }
    destruct (psum_units m es UE) as [G0 GF]; [rewrite (mapM_length _ _ _ Ees); auto|].
    assert (NZ : eqb (psum es) zero = false).
    { assert (PE : Forall (fun e : F => leb zero e = true) es) by (eapply Forall_impl; [|exact UE]; intros a Ha; apply Ha).
      destruct (psum_ge (F64_unit m) es PE) as [_ GE].
      apply In_nth_error in Im. destruct Im as [i Hi]. destruct (nth_error_len es s i mx (mapM_length _ _ _ Ees) Hi) as [e He].
      assert (E1 : expv (sub mx mx) = Ok e). { apply Forall2_nth_error in F2. destruct F2 as [_ F2]. apply (F2 i); auto. }
      assert (One : leb (one : F) e = true).
      { destruct (sub_self mx Fm) as [sg Z]. destruct (H0 sg) as (y & Ey & Fy & Vy). f64. rewrite Z in E1. change (match m_exp m (B754_zero sg) with Some y => Ok y | None => Err OverflowError end = Ok e) in E1. rewrite Ey in E1. injection E1 as <-. rewrite f_leb_x, b2x_one, (b2x_fin y Fy), Vy. apply Rleb_le. lra. }
      specialize (GE e (nth_error_In _ _ He)). pose proof (leb_trans (F64_ord m) _ _ _ One GE) as Q. destruct (a_one _ (F64_ok m)) as (_ & _ & LT).
      pose proof (ltb_leb_trans (F64_ord m) _ _ _ LT Q) as Q2. destruct (eqb (psum es) zero) eqn:E; auto.
      rewrite (o_eq_lt_r _ (F64_ord m) _ _ zero E) in Q2. rewrite (o_irr _ (F64_ord m)) in Q2. discriminate. }
    destruct (normalised_unit (F64_unit m) es) as (p & Ep & Lp & Up); auto; [eapply Forall_impl; [|exact UE]; intros a Ha; apply Ha|].
    exists p. split; [|split; [|split; auto]].
    - unfold ft_sfmax. rewrite (mapM_ext _ (fun x : F => expv (sub x mx))); [rewrite Ees; exact Ep|]. intros x _. rewrite Em. reflexivity.
    - exists mx, es. split; auto. split; [apply Forall_forall; auto|]. split; auto. apply mapM_Forall2. auto.
    - rewrite Lp. apply (mapM_length _ _ _ Ees).
  Qed.
End S.

Local Open Scope R_scope.
Lemma softmax_shift : forall l c, softmax (map (fun x => x - c) l) = softmax l.
Proof.
  intros l c. unfold softmax. rewrite map_map. destruct l as [|x0 l0]; auto. set (l := x0 :: l0). apply map_ext. intro x.
  assert (P : 0 < Rsum (map exp l)) by (apply Rsum_pos_lt; [discriminate|apply exps_pos]).
  assert (E : Rsum (map exp (map (fun x => x - c) l)) = exp (- c) * Rsum (map exp l)).
  { rewrite map_map. clear. induction l as [|y l IH]; cbn [map Rsum]; [unfold Rsum; simpl; ring|]. unfold Rminus. rewrite exp_plus. unfold Rminus in IH. 
    rewrite IH. ring. }
  rewrite E. unfold Rminus. rewrite exp_plus. field. split; [lra|]. apply Rgt_not_eq, exp_pos.
Qed.
Lemma ft_sfmax_XR : forall l, ft_sfmax (A:=XR) (fins l) = Ok (fins (softmax l)).
Proof.
  intro l. destruct l as [|x0 l0]; [reflexivity|]. 
  assert (M : exists c, pymax (gtb (A:=XR)) (fins (x0 :: l0)) = Ok (XFin c : XR)).
  { unfold fins. cbn [map pymax]. revert x0. induction l0 as [|y l IH]; intro x; [exists x; reflexivity|]. cbn [map pymax_from]. destruct (gtb (A:=XR) (XFin y : XR) (XFin x : XR)); apply IH. }
  destruct M as [c M]. set (l := x0 :: l0) in *. unfold ft_sfmax.
  rewrite (mapM_ext _ (fun x : XR => expv (sub x (XFin c : XR)))) by (intros x _; rewrite M; reflexivity).
  unfold fins at 1. rewrite mapM_map. rewrite (mapM_pure _ (fun x => XFin (exp (x - c)) : XR)) by (intros; reflexivity).
  cbn [bind]. change (map (fun x => XFin (exp (x - c)) : XR) l) with (map (fun x => XFin (exp (x - c)) : XR) l).
  replace (map (fun x => XFin (exp (x - c)) : XR) l) with (fins (map exp (map (fun x => x - c) l))) by (unfold fins; rewrite !map_map; reflexivity).
  rewrite psum_fins. assert (P : 0 < Rsum (map exp (map (fun x => x - c) l))) by (apply Rsum_pos_lt; [discriminate|apply exps_pos]).
  unfold fins at 1. rewrite mapM_map. rewrite (mapM_pure _ (fun x => XFin (x / Rsum (map exp (map (fun x => x - c) l))) : XR)) by (intros x _; apply x_div_fin; lra).
  rewrite <- (softmax_shift l c). unfold softmax, fins. rewrite !map_map. auto.
Qed.
