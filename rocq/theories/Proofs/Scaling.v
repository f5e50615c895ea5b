(** Scalers and normalisers. *)
From Coq Require Import String Sorted Reals Lia Lra.
From Flocq Require Import Core BinarySingleNaN.
From Verif Require Import Model.Py Model.Arith Model.F64 Model.XR Model.Utils Model.Base Model.Preprocessing.
From Verif Require Import Spec.Matrix Spec.Ensembles Spec.Reals Spec.Scaling.
From Verif Require Import Proofs.Lib Proofs.Laws Proofs.Round Proofs.Unit Proofs.Arrays Proofs.Arrays2 Proofs.RealLib Proofs.Argmax Proofs.Ensemble.
Local Open Scope nat_scope.

Section Gen.
  Context {A : arith}.

  Lemma mapM_cols : forall (f : nat -> A -> res A) (row : list A) c, length row = c -> forall out,
    mapM (fun i => v <- item_get (Ls row) (Z.of_nat i) ;; f i v) (range c) = Ok out <->
    length out = c /\ forall j x, nth_error row j = Some x -> exists v, nth_error out j = Some v /\ f j x = Ok v.
  Proof.
    intros f row c L out. split.
    - intro H. pose proof (mapM_length _ _ _ H) as LO. unfold range in *. rewrite seq_length in LO. split; auto.
      intros j x Hj. assert (Hc : j < c) by (rewrite <- L; apply nth_error_Some; congruence).
      destruct (mapM_nth _ _ _ j j H) as (v & Hv & E); [rewrite nth_error_seq; apply Nat.ltb_lt in Hc; rewrite Hc; auto|].
      exists v. split; auto. cbn [item_get] in E. rewrite lget_nat, (proj2 (lnth_ok _ _ _) Hj) in E. exact E.
    - intros [LO H]. apply mapM_Forall2. apply Forall2_nth_error. unfold range. rewrite seq_length. split; auto.
      intros j i v Hi Hv. rewrite nth_error_seq in Hi. destruct (j <? c) eqn:Hc; [|discriminate]. injection Hi as <-. cbn [Nat.add].
      destruct (nth_error row j) as [x|] eqn:Hx; [|apply nth_error_None in Hx; apply Nat.ltb_lt in Hc; lia].
      cbn [item_get]. rewrite lget_nat, (proj2 (lnth_ok _ _ _) Hx). cbn [bind]. destruct (H j x Hx) as (v' & Hv' & E). congruence.
  Qed.
  Lemma mapM_rows : forall (f : nat -> A -> res A) (M : list (list A)) r c, rect M r c -> forall D,
    mapM (fun row => mapM (fun i => v <- item_get row (Z.of_nat i) ;; f i v) (range c)) (map Ls M) = Ok D <->
    mapped (fun j x v => f j x = Ok v) r c M D.
  Proof.
    intros f M r c [LM RM] D. rewrite mapM_map, mapM_Forall2, Forall2_nth_error. rewrite Forall_forall in RM. split.
    - intros [LD H]. split.
      + split; [lia|]. apply Forall_forall. intros d Hd. apply In_nth_error in Hd. destruct Hd as [i Hd].
        destruct (nth_error_len _ _ _ _ LD Hd) as [row Hr]. specialize (H i row d Hr Hd). apply mapM_length in H. unfold range in H. rewrite seq_length in H. auto.
      + intros i j x Hc. unfold cell in *. destruct (nth_error M i) as [row|] eqn:Hr; [|discriminate].
        destruct (nth_error_len _ _ _ _ (eq_sym LD) Hr) as [d Hd]. rewrite Hd. specialize (H i row d Hr Hd).
        apply mapM_cols in H; [|eapply RM, nth_error_In; eauto]. apply H. auto.
    - intros [[LD RD] H]. split; [lia|]. intros i row d Hr Hd. rewrite Forall_forall in RD. apply mapM_cols; [eapply RM, nth_error_In; eauto|].
      split; [eapply RD, nth_error_In; eauto|]. intros j x Hx. destruct (H i j x) as (v & Hv & E); [unfold cell; rewrite Hr; auto|].
      unfold cell in Hv. rewrite Hd in Hv. eauto.
  Qed.
  Lemma mapped_iff : forall {S T} (R R' : nat -> S -> T -> Prop) r c M D, (forall j x v, R j x v <-> R' j x v) ->
    mapped R r c M D <-> mapped R' r c M D.
  Proof. intros S T R R' r c M D H. unfold mapped. split; intros [HR HC]; split; auto; intros i j x Hc; destruct (HC i j x Hc) as (v & Hv & E); exists v; split; auto; apply H; auto. Qed.

  Lemma mapped_exists : forall (R : nat -> A -> A -> Prop) (M : list (list A)) r c, rect M r c ->
    (forall i j x, cell M i j = Some x -> exists v, R j x v) -> exists D, mapped R r c M D.
  Proof.
    intros R M r c [LM RM] H. subst r.
    assert (G : forall row : list A, (forall j x, nth_error row j = Some x -> exists v, R j x v) ->
      exists d, length d = length row /\ forall j x, nth_error row j = Some x -> exists v, nth_error d j = Some v /\ R j x v).
    { clear. intros row. revert R. induction row as [|x row IH]; intros R H; [exists []; split; auto; intros [|]; discriminate|].
      destruct (H 0 x eq_refl) as [v Hv]. destruct (IH (fun j => R (S j))) as (d & Ld & Hd); [intros j y Hy; apply (H (S j)); auto|].
      exists (v :: d). split; [simpl; auto|]. intros [|j] y Hy; [injection Hy as <-; exists v; auto|]. apply Hd. auto. }
    induction M as [|row M IH]; [exists []; split; [split; auto|intros [|]; discriminate]|].
    inversion RM as [|? ? Lr RM']; subst. destruct (G row) as (d & Ld & Hd); [intros j x Hj; apply (H 0 j x); auto|].
    destruct IH as (D & [LD RD] & HD); auto; [intros i j x Hc; apply (H (S i) j x); auto|].
    exists (d :: D). split; [split; simpl; auto|]. intros [|i] j x Hc; [apply Hd; auto|apply HD; auto].
  Qed.

  Lemma check_ll : forall (M : list (list A)) h, M <> [] -> check_array (ll M) h = Ok (ll M).
  Proof. intros [|x M] h N; [congruence|reflexivity]. Qed.
  Lemma check_sp : forall rows sz dt, check_array (A:=A) (Sp rows sz dt) HAllow = Ok (Sp rows sz dt).
  Proof. reflexivity. Qed.

  (** ** StandardScaler on dense input *)
  Lemma std_dense : forall (s : std_scaler A) mean scale (M : list (list A)) r c, rect M r c -> 1 <= r ->
    (ss_mean_on s = true -> ss_mean s = Some mean /\ length mean = c) ->
    (ss_std_on s = true -> ss_scale s = Some scale /\ length scale = c) ->
    forall out, std_transform s (ll M) = Ok out <->
      exists D, out = ll D /\ mapped (standard (ss_mean_on s) (ss_std_on s) mean scale) r c M D.
  Proof.
    intros s mean scale M r c HR Hr HM HS out. unfold std_transform. rewrite check_ll by (destruct HR; destruct M; [simpl in *; lia|discriminate]).
    cbn [bind]. unfold ll at 1. cbn [items bind].
    (* the centred matrix *)
    assert (G1 : exists M1, (if ss_mean_on s
       then ' M0 <- mapM (fun x => ' mean0 <- not_none (ss_mean s);; mapM (fun i => ' v <- item_get x (Z.of_nat i);; ' m <- lnth mean0 i;; Ok (sub v m)) (range (List.length mean0))) (map Ls M);; Ok (ll M0)
       else Ok (Arr (map Ls M))) = Ok (ll M1) /\
       mapped (fun j x y => if ss_mean_on s then exists m, nth_error mean j = Some m /\ y = sub x m else y = x) r c M M1).
    { destruct (ss_mean_on s) eqn:E.
      - destruct (HM eq_refl) as [E1 L1]. rewrite E1. cbn [not_none bind].
        destruct (mapped_exists (fun j x y => exists m, nth_error mean j = Some m /\ y = sub x m) M r c HR) as [M1 H1].
        { intros i j x Hc. assert (j < c). { destruct HR as [_ RM]. unfold cell in Hc. destruct (nth_error M i) as [row|] eqn:Ei; [|discriminate]. rewrite Forall_forall in RM. rewrite <- (RM row) by (eapply nth_error_In; eauto). apply nth_error_Some. congruence. }
          destruct (nth_error mean j) as [m|] eqn:Ej; [eauto|]. apply nth_error_None in Ej. lia. }
        exists M1. split; auto. rewrite L1.
        assert (Q : mapM (fun x => mapM (fun i => ' v <- item_get x (Z.of_nat i);; ' m <- lnth mean i;; Ok (sub v m)) (range c)) (map Ls M) = Ok M1).
        { apply (mapM_rows (fun i v => m <- lnth mean i ;; Ok (sub v m)) M r c HR). revert H1. apply mapped_iff. intros j x v. split.
          - intro Q. inv_bind Q. apply lnth_ok in E0. injection Q as <-. eauto.
          - intros (m & Hm & ->). rewrite (proj2 (lnth_ok _ _ _) Hm). reflexivity. }
        rewrite Q. reflexivity.
      - exists M. split; auto. split; auto. intros i j x Hc. eauto. }
    destruct G1 as (M1 & E1 & H1).
    assert (E2 : forall k : arr A -> res (arr A), ( ' X2 <- (if ss_mean_on s
       then ' M0 <- mapM (fun x => ' mean0 <- not_none (ss_mean s);; mapM (fun i => ' v <- item_get x (Z.of_nat i);; ' m <- lnth mean0 i;; Ok (sub v m)) (range (List.length mean0))) (map Ls M);; Ok (ll M0)
       else Ok (Arr (map Ls M)));; k X2) = k (ll M1)).
    { intro k. rewrite E1. reflexivity. }
    rewrite E2. clear E1 E2.
    destruct (ss_std_on s) eqn:E.
    - destruct (HS eq_refl) as [Es Ls']. rewrite Es. unfold ll at 1. cbn [items bind not_none]. unfold div_row. rewrite Ls'.
      pose proof (mapM_rows (fun i v => m <- lnth scale i ;; div v m) M1 r c (proj1 H1)) as Q.
      split.
      + intro H. inv_bind H. injection H as <-. exists a. split; auto. apply Q in E0. destruct H1 as [R1 H1]. destruct E0 as [R2 H2]. split; auto.
        intros i j x Hc. destruct (H1 i j x Hc) as (y & Hy & P1). destruct (H2 i j y Hy) as (v & Hv & P2). exists v. split; auto. exists y. split; auto.
        inv_bind P2. apply lnth_ok in E0. eauto.
      + intros (D & -> & H2). assert (EQ : mapM (fun row => mapM (fun i => ' v <- item_get row (Z.of_nat i);; ' m <- lnth scale i;; div v m) (range c)) (map Ls M1) = Ok D).
        { apply Q. destruct H1 as [R1 H1]. destruct H2 as [R2 H2]. split; auto. intros i j y Hy.
          assert (X : exists x, cell M i j = Some x). { destruct R1 as [L1 R1], HR as [LM RM]. unfold cell in *. destruct (nth_error M1 i) as [row1|] eqn:Ei; [|discriminate].
            destruct (nth_error_len M M1 i row1 ltac:(lia) Ei) as [row Er]. rewrite Er. rewrite Forall_forall in R1, RM.
            eapply nth_error_len; [|exact Hy]. rewrite (RM row), (R1 row1); eauto using nth_error_In. }
          destruct X as [x Hx]. destruct (H1 i j x Hx) as (y' & Hy' & P1). rewrite Hy in Hy'. injection Hy' as <-.
          destruct (H2 i j x Hx) as (v & Hv & y' & P1' & s' & Hs & Ed). exists v. split; auto. rewrite (proj2 (lnth_ok _ _ _) Hs). cbn [bind].
          assert (y' = y). { destruct (ss_mean_on s); [|congruence]. destruct P1 as (m1 & Hm1 & ->), P1' as (m2 & Hm2 & ->). congruence. } congruence. }
        rewrite EQ. reflexivity.
    - split.
      + intro H. injection H as <-. exists M1. split; auto. destruct H1 as [R1 H1]. split; auto. intros i j x Hc. destruct (H1 i j x Hc) as (y & Hy & P). exists y. split; auto. exists y. auto.
      + intros (D & -> & H2). do 2 f_equal. apply (rect_ext M1 D r c); [apply H1|apply H2|]. intros i j Hi Hj.
        destruct (rect_cell M r c i j HR Hi Hj) as [x Hx]. destruct H1 as [R1 H1], H2 as [R2 H2].
        destruct (H1 i j x Hx) as (y & Hy & P1). destruct (H2 i j x Hx) as (v & Hv & y' & P2 & ->). rewrite Hy, Hv. f_equal.
        destruct (ss_mean_on s); [|congruence]. destruct P1 as (m1 & Hm1 & ->), P2 as (m2 & Hm2 & ->). congruence.
  Qed.

  (** A function applied to every stored cell of a row. *)
  Lemma dmap_stored : forall (f : Z -> A -> res A) (d : dict Z A) (r out : list A), stores d r -> length out = length r ->
    (forall j x, nth_error r j = Some x -> exists v, nth_error out j = Some v /\ f (Z.of_nat j) x = Ok v /\ (is0 x -> is0 v)) ->
    exists d', dmapM f d = Ok d' /\ map fst d' = map fst d /\ stores d' out.
  Proof.
    intros f d r out (ND & HK & HV) LO H.
    assert (ST : forall k v, In (k, v) d -> exists j, k = Z.of_nat j /\ nth_error r j = Some v).
    { intros k v Hin. destruct (HK k) as [K0 K1]; [apply in_map_iff; exists (k, v); auto|].
      exists (Z.to_nat k). split; [lia|]. destruct (nth_error r (Z.to_nat k)) as [x|] eqn:E; [|apply nth_error_None in E; lia].
      destruct (HV _ _ E) as [(w & Hw & ->)|[Hn _]].
      - rewrite Z2Nat.id in Hw by lia. f_equal. clear -ND Hin Hw.
        induction d as [|[k' v'] d IH]; [destruct Hin|]. simpl in ND. inversion ND as [|? ? N1 N2]; subst.
        destruct Hin as [E1|Hin], Hw as [E2|Hw].
        + congruence.
        + injection E1 as -> ->. exfalso. apply N1. apply in_map_iff. exists (k, x); auto.
        + injection E2 as -> ->. exfalso. apply N1. apply in_map_iff. exists (k, v); auto.
        + auto.
      - exfalso. apply Hn. rewrite Z2Nat.id by lia. apply in_map_iff. exists (k, v); auto. }
    assert (E : exists d', dmapM f d = Ok d').
    { apply mapM_total. intros [k v] Hin. destruct (ST k v Hin) as (j & -> & Hj). destruct (H j v Hj) as (w & _ & E & _). cbn [fst snd]. rewrite E. cbn [bind]. eauto. }
    destruct E as [d' E]. exists d'. split; auto. unfold dmapM in E. pose proof (proj1 (mapM_Forall2 _ _ _) E) as F.
    assert (KE : map fst d' = map fst d).
    { clear -F. induction F as [|[k v] [k' v'] d d' E F IH]; simpl; auto. cbn [fst snd] in E. inv_bind E. injection E as <- <-. f_equal. auto. }
    split; auto. split; [rewrite KE; auto|]. split; [intros k Hk; rewrite KE in Hk; rewrite LO; auto|].
    intros j v Hv. destruct (nth_error_len r out j v (eq_sym LO) Hv) as [x Hx]. destruct (H j x Hx) as (v' & Hv' & Ex & HZ).
    rewrite Hv in Hv'. injection Hv' as <-. destruct (HV j x Hx) as [(w & Hw & ->)|[Hn H0]].
    - left. exists v. split; auto. apply In_nth_error in Hw. destruct Hw as [n Hn]. destruct (mapM_nth _ _ _ n _ E Hn) as (y & Hy & Ey).
      cbn [fst snd] in Ey. rewrite Ex in Ey. injection Ey as <-. eapply nth_error_In; eauto.
    - right. rewrite KE. auto.
  Qed.

  Lemma maxabs_dense : forall scale (M : list (list A)) r c, rect M r c -> 1 <= r -> length scale = c ->
    forall out, maxabs_transform (Some scale) (ll M) = Ok out <-> exists D, out = ll D /\ mapped (divided scale) r c M D.
  Proof.
    intros scale M r c HR Hr HL out. unfold maxabs_transform. rewrite check_ll by (destruct HR; destruct M; [simpl in *; lia|discriminate]).
    cbn [bind]. unfold ll at 1. change (items (ll M)) with (@Ok (list (item A)) (map Ls M)). cbn [items bind not_none]. unfold div_row. rewrite HL.
    assert (Q : forall D, mapM (fun row => mapM (fun i => ' v <- item_get row (Z.of_nat i);; ' s <- lnth scale i;; div v s) (range c)) (map Ls M) = Ok D <-> mapped (divided scale) r c M D).
    { intro D. rewrite (mapM_rows (fun i v => s <- lnth scale i ;; div v s) M r c HR D). apply mapped_iff. intros j x v. unfold divided. split.
      - intro Q. inv_bind Q. apply lnth_ok in E. eauto.
      - intros (s & Hs & E). rewrite (proj2 (lnth_ok _ _ _) Hs). auto. }
    split.
    - intro H. inv_bind H. injection H as <-. exists a. split; auto. apply Q. auto.
    - intros (D & -> & H). apply Q in H. rewrite H. reflexivity.
  Qed.
  Lemma minmax_dense : forall scale mn (M : list (list A)) r c, rect M r c -> 1 <= r -> length scale = c -> length mn = c ->
    forall out, minmax_transform {| mm_scale := Some scale; mm_min := Some mn |} (ll M) = Ok out <-> exists D, out = ll D /\ mapped (affine_col scale mn) r c M D.
  Proof.
    intros scale mn M r c HR Hr HL HL2 out. unfold minmax_transform. cbn [issparse ll]. change (Arr (map Ls M)) with (ll M). rewrite check_ll by (destruct HR; destruct M; [simpl in *; lia|discriminate]).
    cbn [bind]. change (items (ll M)) with (@Ok (list (item A)) (map Ls M)). cbn [items bind not_none mm_scale mm_min]. rewrite HL.
    assert (Q : forall D, mapM (fun row => mapM (fun i => ' v <- item_get row (Z.of_nat i);; ' c <- lnth scale i;; ' m <- lnth mn i ;; Ok (add (mul v c) m)) (range c)) (map Ls M) = Ok D <-> mapped (affine_col scale mn) r c M D).
    { intro D. rewrite (mapM_rows (fun i v => ' c <- lnth scale i;; ' m <- lnth mn i ;; Ok (add (mul v c) m)) M r c HR D). apply mapped_iff. intros j x v. unfold affine_col. split.
      - intro Q. inv_bind Q. inv_bind Q. apply lnth_ok in E, E0. injection Q as <-. eauto.
      - intros (s & t & Hs & Ht & ->). rewrite (proj2 (lnth_ok _ _ _) Hs). cbn [bind]. rewrite (proj2 (lnth_ok _ _ _) Ht). auto. }
    split.
    - intro H. inv_bind H. injection H as <-. exists a. split; auto. apply Q. auto.
    - intros (D & -> & H). apply Q in H. rewrite H. reflexivity.
  Qed.

  (** Dividing zero by a number that is neither zero nor NaN. *)
  Hypothesis DZ : forall z b q : A, is0 z -> isnan b = false -> div z b = Ok q -> is0 q.

  Lemma divided_sparse : forall scale rows (M D : list (list A)) r c, rect M r c -> length scale = c ->
    Forall (fun s => isnan s = false) scale -> Forall2 stores rows M -> mapped (divided scale) r c M D ->
    exists rows', mapM (div_cells scale) rows = Ok rows' /\ Forall2 stores rows' D /\ map (map fst) rows' = map (map fst) rows.
  Proof.
    intros scale rows M D r c [LM RM] LS NS F [[LD RD] H]. subst r. revert D LD RD H.
    induction F as [|d row rows M Hd F IH]; intros D LD RD H.
    - destruct D; [|discriminate]. exists []. auto.
    - destruct D as [|out D]; [discriminate|]. inversion RM as [|? ? Lr RM']; subst. inversion RD as [|? ? Lo RD']; subst.
      destruct (IH RM' D) as (rows' & E & F' & K); auto; [intros i j x Hc; apply (H (S i) j x); auto|].
      destruct (dmap_stored (fun k v => s <- lget scale k ;; div v s) d row out Hd) as (d' & Ed & Kd & Sd); [congruence| |].
      + intros j x Hj. destruct (H 0 j x Hj) as (v & Hv & s & Hs & Ev). exists v. split; auto. rewrite lget_nat, (proj2 (lnth_ok _ _ _) Hs). cbn [bind]. split; auto.
        intro Z0. eapply DZ; eauto. rewrite Forall_forall in NS. eapply NS, nth_error_In; eauto.
      + exists (d' :: rows'). cbn [mapM]. unfold div_cells at 1. rewrite Ed. cbn [bind]. rewrite E. split; auto. split; [constructor; auto|]. simpl. f_equal; auto.
  Qed.

  (** ** Normalisation *)
  Lemma zip_forall2 : forall {S T U} (R : S -> T -> U -> Prop) (l : list S) (m : list T) (o : list U), length l = length m ->
    (Forall2 (fun p u => R (fst p) (snd p) u) (combine l m) o <-> length o = length l /\ forall i x y u, nth_error l i = Some x -> nth_error m i = Some y -> nth_error o i = Some u -> R x y u).
  Proof.
    intros S T U R l m o L. rewrite Forall2_nth_error, combine_length, <- L, Nat.min_id. split; intros [Lo H]; split; auto.
    - intros i x y u Hx Hy Hu. apply (H i (x, y) u); auto. rewrite nth_error_combine, Hx, Hy. auto.
    - intros i [x y] u Hp Hu. rewrite nth_error_combine in Hp. destruct (nth_error l i) eqn:E1, (nth_error m i) eqn:E2; try discriminate. injection Hp as <- <-. eapply H; eauto.
  Qed.

  Lemma scale_dense : forall (M : list (list A)) ns, length ns = length M -> forall out,
    scale_rows (ll M) ns = Ok out <-> exists D, out = ll D /\ Forall2 (fun p d => Forall2 (fun x y => div x (snd p) = Ok y) (fst p) d) (combine M ns) D.
  Proof.
    intros M ns L out. unfold scale_rows, ll. cbn [items bind]. rewrite map_length.
    assert (Q : mapM (fun i => ' x <- lnth (map Ls M) i;; ' r <- iter_item x;; mapM (fun a => ' n <- lnth ns i;; div a n) r) (range (List.length M)) =
                mapM (fun p => mapM (fun a => div a (snd p)) (fst p)) (combine M ns)).
    { rewrite <- (mapM_range_nth2 M ns (fun r n => mapM (fun a => div a n) r)) by auto. apply mapM_ext. intros i Hi. apply in_seq in Hi.
      destruct (lnth_lt M i) as (x & Ex & Nx); [lia|]. destruct (lnth_lt ns i) as (n & En & Nn); [lia|].
      unfold lnth at 1. rewrite nth_error_map', Nx. cbn [option_map bind iter_item]. rewrite Ex. cbn [bind]. rewrite En. cbn [bind]. reflexivity. }
    rewrite Q. clear Q. split.
    - intro H. inv_bind H. injection H as <-. exists a. split; auto. apply mapM_Forall2 in E. eapply Forall2_imp; [|exact E]. intros p d Hp. apply mapM_Forall2 in Hp. exact Hp.
    - intros (D & -> & F). assert (E : mapM (fun p => mapM (fun a => div a (snd p)) (fst p)) (combine M ns) = Ok D).
      { apply mapM_Forall2. eapply Forall2_imp; [|exact F]. intros p d Hp. apply mapM_Forall2. exact Hp. }
      rewrite E. reflexivity.
  Qed.

  Lemma norms_l1 : forall M : list (list A), norms_of (ll M) (lit "l1") = Ok (map (fun r => psum (map absv r)) M).
  Proof.
    intro M. unfold norms_of. change (str_eqb (lit "l1") (lit "l1")) with true. cbv iota. cbn [issparse ll]. unfold apply_2d. cbn [issparse items bind ll].
    rewrite mapM_map. cbn [iter_item bind]. rewrite (mapM_pure _ (map absv)) by (intros; apply mapM_Ok). cbn [bind].
    unfold apply_axis_2d. cbn [issparse ll andb Z.eqb Pos.eqb items bind]. rewrite map_map, mapM_map. cbn [iter_item bind]. apply mapM_Ok.
  Qed.
  Lemma psum_sq : forall r : list A, psum (zip_with mul r r) = dotp r r.
  Proof. intro r. apply psum_zip. Qed.
  Lemma norms_l2 : forall (M : list (list A)) r c, rect M r c -> 1 <= r ->
    norms_of (ll M) (lit "l2") = mapM (fun row => sqrtv (dotp row row)) M.
  Proof.
    intros M r c HR Hr. unfold norms_of. change (str_eqb (lit "l2") (lit "l1")) with false. change (str_eqb (lit "l2") (lit "l2")) with true. cbv iota.
    unfold row_norms. rewrite (matmult_dense M M r c HR HR Hr). cbn [bind issparse ll]. unfold apply_axis_2d. cbn [issparse ll andb Z.eqb Pos.eqb items bind].
    rewrite mapM_map. cbn [iter_item bind]. rewrite mapM_Ok. cbn [bind]. rewrite mapM_map.
    transitivity (mapM (fun row => sqrtv (psum row)) (map (fun row => zip_with mul row row) M)).
    - f_equal. clear. induction M as [|x M IH]; simpl; auto. f_equal. auto.
    - rewrite mapM_map. apply mapM_ext. intros row _. rewrite psum_sq. reflexivity.
  Qed.
  Lemma norms_max : forall (M : list (list A)), norms_of (ll M) (lit "max") = mapM (pymax gtb) M.
  Proof.
    intro M. unfold norms_of. change (str_eqb (lit "max") (lit "l1")) with false. change (str_eqb (lit "max") (lit "l2")) with false. cbv iota.
    cbn [issparse ll]. unfold apply_axis_2d. cbn [issparse ll andb Z.eqb Pos.eqb items bind]. rewrite mapM_map. reflexivity.
  Qed.

  Definition norm_name (norm : pystr) : Prop := norm = lit "l1" \/ norm = lit "l2" \/ norm = lit "max".
  (** axis = 1 on a dense matrix: given the norms, every row is divided by its norm. *)
  Lemma normalize_rows : forall norm (M : list (list A)), norm_name norm -> M <> [] -> forall out,
    normalize_pure (ll M) norm 1 = Ok out <->
    exists ns D, norms_of (ll M) norm = Ok ns /\ length ns = length M /\ out = ll D /\
      length D = length M /\ forall i row n d, nth_error M i = Some row -> nth_error ns i = Some n -> nth_error D i = Some d -> divided_by n row d.
  Proof.
    intros norm M HN N out. unfold normalize_pure, normalize_full.
    assert (G : mem str_eqb norm [lit "l1"; lit "l2"; lit "max"] = true) by (destruct HN as [->|[->| ->]]; reflexivity).
    rewrite G. cbn [guard Z.eqb Pos.eqb andb negb orb bind]. rewrite check_ll by auto. cbn [bind issparse ll andb negb guard]. change (Arr (map Ls M)) with (ll M).
    assert (LN : forall ns, norms_of (ll M) norm = Ok ns -> length ns = length M).
    { intros ns E. destruct HN as [->|[->| ->]].
      - rewrite norms_l1 in E. injection E as <-. apply map_length.
      - unfold norms_of in E. change (str_eqb (lit "l2") (lit "l1")) with false in E. change (str_eqb (lit "l2") (lit "l2")) with true in E. cbv iota in E.
        unfold row_norms in E. inv_bind E. cbn [issparse ll] in E. inv_bind E. rewrite (mapM_length _ _ _ E).
        unfold matmult_same_dim in E0. cbn [issparse ll Bool.eqb guard] in E0. inv_bind E0. inv_bind E0. inv_bind E0. inv_bind E0. unfold ll in E0. cbn [items bind] in E0.
        match goal with S : shape _ = Ok ?a, H : match ?a with S1 _ => _ | S2 _ _ => _ end = _ |- _ => destruct a as [k|k m]; [discriminate H|]; inv_bind H; injection H as <-; rename S into ES end.
        match goal with H : mapM _ (range _) = Ok _ |- _ => apply mapM_length in H; unfold range in H; rewrite seq_length in H; rename H into EM end.
        unfold apply_axis_2d in E1. cbn [issparse ll andb Z.eqb Pos.eqb items bind] in E1. apply mapM_length in E1. rewrite E1, map_length, EM.
        unfold shape, ll in ES. cbn [items bind] in ES. destruct M as [|x M]; [congruence|]. cbn [map] in ES. injection ES as <- _. cbn [length map]. rewrite map_length. lia.
      - rewrite norms_max in E. apply (mapM_length _ _ _ E). }
    split.
    - intro H. inv_bind H. inv_bind E. inv_bind E. injection E as <-. cbn [fst] in H. injection H as <-. pose proof (LN _ E0) as L0.
      apply scale_dense in E1; [|unfold handle_zeros; rewrite map_length; auto]. destruct E1 as (D & -> & F).
      exists a0, D. split; auto. split; auto. split; auto. apply (zip_forall2 (fun row n d => Forall2 (fun x y => div x n = Ok y) row d)) in F; [|unfold handle_zeros; rewrite map_length; auto]. destruct F as [LD F]. split; auto.
      intros i row n d Hr Hn Hd. apply (F i row (if eqb n zero then one else n) d Hr); auto. unfold handle_zeros. rewrite nth_error_map', Hn. auto.
    - intros (ns & D & En & L0 & -> & LD & F). rewrite En. cbn [bind].
      assert (E : scale_rows (ll M) (handle_zeros ns) = Ok (ll D)).
      { apply scale_dense; [unfold handle_zeros; rewrite map_length; auto|]. exists D. split; auto. apply (zip_forall2 (fun row n d => Forall2 (fun x y => div x n = Ok y) row d)); [unfold handle_zeros; rewrite map_length; auto|]. split; auto.
        intros i row n d Hr Hn Hd. unfold handle_zeros in Hn. rewrite nth_error_map' in Hn. destruct (nth_error ns i) as [n0|] eqn:E0; [|discriminate]. injection Hn as <-.
        exact (F i row n0 d Hr E0 Hd). }
      rewrite E. reflexivity.
  Qed.
End Gen.

Section Sparse.
  Context {A : arith} (OK : arith_ok A).
  Hypothesis DZ : forall z b q : A, is0 z -> isnan b = false -> div z b = Ok q -> is0 q.
  Hypothesis ONE : finite (one : A).

  Lemma psum_stored : forall (d : dict Z A) (r : list A), stores_sorted d r -> psum (dvalues d) = psum r.
  Proof.
    intros d r H. pose proof (dot_stored OK d r [repeat one (length r)] H) as Q.
    assert (F : Forall (fun b : list A => length b = length r /\ Forall finite b) [repeat one (length r)]).
    { constructor; [|constructor]. split; [apply repeat_length|]. apply Forall_forall. intros x Hx. apply repeat_spec in Hx. subst; auto. }
    specialize (Q F). rewrite dot_dense in Q. cbn [map] in Q. unfold dot in Q. cbn [mapM] in Q. inv_bind Q. cbn [bind] in Q. injection Q as Q.
    inv_bind E. injection E as <-.
    assert (E1 : a0 = dvalues d).
    { destruct H as [(ND & HK & _) _]. clear -E0 HK OK. revert a0 E0. induction d as [|[k v] d IH]; intros ts E; cbn [mapM] in E.
      - injection E as <-. reflexivity.
      - inv_bind E. inv_bind E. inv_bind E0. injection E0 as <-. injection E as <-. simpl. f_equal.
        + cbn [fst snd] in *. assert (K : (0 <= k < Z.of_nat (length r))%Z) by (apply HK; simpl; auto).
          rewrite <- (Z2Nat.id k) in E2 by lia. rewrite lget_nat in E2. apply lnth_ok in E2. apply nth_error_In, repeat_spec in E2. subst. apply (a_mul_one _ OK).
        + apply IH; auto. intros k' Hk'. apply HK. simpl; auto. }
    subst a0. rewrite Q. unfold psum, dotp. clear -OK. generalize (zero : A). intro acc. revert acc. induction r as [|x r IH]; intro acc; simpl; auto. rewrite (a_mul_one _ OK). apply IH.
  Qed.
  Lemma map_stored : forall (h : A -> A) (d : dict Z A) (r : list A), (forall x, is0 x -> is0 (h x)) -> stores_sorted d r ->
    stores_sorted (map (fun kv => (fst kv, h (snd kv))) d) (map h r).
  Proof.
    intros h d r HZ [S SS]. destruct (dmap_stored (fun _ v => Ok (h v)) d r (map h r) S) as (d' & E & K & S').
    - apply map_length.
    - intros j x Hx. exists (h x). rewrite nth_error_map', Hx. auto.
    - unfold dmapM in E. cbn [bind] in E. rewrite mapM_Ok in E. injection E as <-. split; auto. rewrite map_map. exact SS.
  Qed.
  Lemma psum_map_stored : forall (h : A -> A) (d : dict Z A) (r : list A), (forall x, is0 x -> is0 (h x)) -> stores_sorted d r ->
    psum (map h (dvalues d)) = psum (map h r).
  Proof.
    intros h d r HZ H. rewrite <- (psum_stored _ _ (map_stored h d r HZ H)). f_equal. unfold dvalues. rewrite !map_map. reflexivity.
  Qed.
  Lemma mult_rows_self : forall d : dict Z A, NoDup (map fst d) -> mult_rows d d = map (fun kv => (fst kv, mul (snd kv) (snd kv))) d.
  Proof.
    intros d ND. rewrite mult_rows_items by auto. unfold prod_items.
    assert (G : forall l, incl l d -> concat (map (fun kva => map (fun kvb => (fst kvb, mul (snd kva) (snd kvb))) (filter (fun kvb => (fst kvb =? fst kva)%Z) d)) l) = map (fun kv => (fst kv, mul (snd kv) (snd kv))) l).
    { induction l as [|[k v] l IH]; intro I; [reflexivity|]. cbn [map concat]. rewrite IH by (intros z Hz; apply I; right; auto).
      assert (F : filter (fun kvb => (fst kvb =? k)%Z) d = [(k, v)]).
      { assert (Hin : In (k, v) d) by (apply I; left; auto). clear -ND Hin. induction d as [|[k' v'] d IH]; [destruct Hin|]. simpl in ND. inversion ND as [|? ? N1 N2]; subst.
        cbn [filter fst]. destruct Hin as [E|Hin].
        - injection E as -> ->. rewrite Z.eqb_refl. f_equal. clear IH ND. induction d as [|[k' v'] d IH]; auto. cbn [filter fst]. destruct (Z.eqb_spec k' k).
          + subst. exfalso. apply N1. left. auto.
          + apply IH; [intro Q; apply N1; right; auto|]. simpl in N2. inversion N2; auto.
        - destruct (Z.eqb_spec k' k); [|auto]. subst. exfalso. apply N1. apply in_map_iff. exists (k, v). auto. }
      cbn [fst snd]. rewrite F. reflexivity. }
    apply G. intros z Hz. auto.
  Qed.

  Hypothesis ABS0 : forall x : A, is0 x -> is0 (absv x).
  Hypothesis SQ0 : forall x : A, is0 x -> is0 (mul x x).

  Lemma norms_sp_l1 : forall rows (M : list (list A)) sz dt, Forall2 stores_sorted rows M ->
    norms_of (Sp rows sz dt) (lit "l1") = Ok (map (fun r => psum (map absv r)) M).
  Proof.
    intros rows M sz dt F. unfold norms_of. change (str_eqb (lit "l1") (lit "l1")) with true. cbv iota. cbn [issparse items bind].
    rewrite mapM_map. cbn [item_values bind]. rewrite mapM_Ok. f_equal.
    induction F as [|d r rows M H F IH]; cbn [map]; auto. f_equal; auto. apply psum_map_stored; auto.
  Qed.
  Lemma dotp_psum : forall r : list A, dotp r r = psum (map (fun x => mul x x) r).
  Proof. intro r. unfold dotp, psum. generalize (zero : A). intro acc. revert acc. induction r as [|x r IH]; intro acc; simpl; auto. Qed.
  Lemma norms_sp_l2 : forall rows (M : list (list A)) sz dt, Forall2 stores_sorted rows M -> rows <> [] ->
    norms_of (Sp rows sz dt) (lit "l2") = mapM (fun row => sqrtv (dotp row row)) M.
  Proof.
    intros rows M sz dt F N. unfold norms_of. change (str_eqb (lit "l2") (lit "l1")) with false. change (str_eqb (lit "l2") (lit "l2")) with true. cbv iota.
    assert (N1 : 1 <= length rows) by (destruct rows; [congruence|cbn [length]; lia]).
    unfold row_norms, matmult_same_dim. rewrite (shape_sp rows sz dt (length rows)) by auto. cbn [bind].
    assert (G : shp_eqb (S2 (Z.of_nat (length rows)) sz) (S2 (Z.of_nat (length rows)) sz) = true).
    { unfold shp_eqb. rewrite Z.eqb_refl. destruct sz; [apply Z.eqb_refl|reflexivity]. }
    rewrite G. cbn [guard bind issparse Bool.eqb].
    assert (Z : zip_with mult_rows rows rows = map (fun d => map (fun kv => (fst kv, mul (snd kv) (snd kv))) d) rows).
    { clear -F. induction F as [|d r rows M [[ND _] _] F IH]; cbn [zip_with map]; auto. f_equal; auto. apply mult_rows_self. auto. }
    rewrite Z. assert (SL : forall R : list (dict BinNums.Z A), R <> [] -> sparse_list R sz dt = Ok (Sp R sz dt)) by (intros [|]; [congruence|reflexivity]).
    rewrite SL by (destruct rows; [congruence|discriminate]). cbn [bind items].
    rewrite mapM_map. cbn [item_values bind]. rewrite mapM_Ok. cbn [bind]. rewrite map_map, mapM_map. clear -F OK ONE SQ0.
    induction F as [|d r rows M H F IH]; cbn [map mapM]; auto. rewrite IH.
    replace (psum (dvalues (map (fun kv => (fst kv, mul (snd kv) (snd kv))) d))) with (dotp r r); auto.
    rewrite dotp_psum, <- (psum_map_stored (fun x => mul x x) d r) by auto. unfold dvalues. rewrite !map_map. reflexivity.
  Qed.

  Lemma scale_sparse : forall rows sz dt (M D : list (list A)) ns, Forall2 stores rows M -> rows <> [] -> length ns = length M -> length D = length M ->
    Forall (fun n => isnan n = false) ns ->
    (forall i row n d, nth_error M i = Some row -> nth_error ns i = Some n -> nth_error D i = Some d -> Forall2 (fun x y => div x n = Ok y) row d) ->
    exists rows', scale_rows (Sp rows sz dt) ns = Ok (Sp rows' sz dt) /\ Forall2 stores rows' D /\ map (map fst) rows' = map (map fst) rows.
  Proof.
    intros rows sz dt M D ns F N L1 L2 NN H. unfold scale_rows.
    assert (Q : mapM (fun i => ' r <- lnth rows i;; dmapM (fun _ v => ' n <- lnth ns i;; div v n) r) (range (length rows)) =
                mapM (fun p => dmapM (fun _ v => div v (snd p)) (fst p)) (combine rows ns)).
    { pose proof (Forall2_len _ _ _ F) as LF. rewrite <- (mapM_range_nth2 rows ns (fun r n => dmapM (fun _ v => div v n) r)) by lia. apply mapM_ext. intros i Hi. apply in_seq in Hi.
      destruct (lnth_lt rows i) as (x & Ex & Nx); [lia|]. destruct (lnth_lt ns i) as (n & En & Nn); [lia|]. rewrite Ex. cbn [bind]. rewrite En. reflexivity. }
    rewrite Q. clear Q.
    assert (G : exists rows', mapM (fun p => dmapM (fun _ v => div v (snd p)) (fst p)) (combine rows ns) = Ok rows' /\ Forall2 stores rows' D /\ map (map fst) rows' = map (map fst) rows).
    { clear N. revert ns D L1 L2 NN H. induction F as [|d row rows M Hd F IH]; intros ns D L1 L2 NN H.
      - destruct D; [|discriminate]. exists []. auto.
      - destruct D as [|out D]; [discriminate|]. destruct ns as [|n ns]; [discriminate|]. inversion NN as [|? ? Nn NN']; subst.
        destruct (IH ns D) as (rows' & E & F' & K); auto; [intros i; apply (H (S i))|].
        specialize (H 0 row n out eq_refl eq_refl eq_refl). pose proof (Forall2_len _ _ _ H) as Lo.
        destruct (dmap_stored (fun _ v => div v n) d row out Hd) as (d' & Ed & Kd & Sd); [auto| |].
        + intros j x Hj. apply Forall2_nth_error in H. destruct H as [_ H]. destruct (nth_error_len out row j x (eq_sym Lo) Hj) as [v Hv]. exists v. split; auto. split; [eapply H; eauto|]. intro Z0. eapply DZ; eauto.
        + exists (d' :: rows'). cbn [combine mapM fst snd]. rewrite Ed. cbn [bind]. rewrite E. split; auto. split; [constructor; auto|]. cbn [map]. f_equal; auto. }
    destruct G as (rows' & E & F' & K). exists rows'. rewrite E. cbn [bind]. split; auto. unfold sparse_list. destruct rows'; auto. destruct rows; [congruence|discriminate].
  Qed.
End Sparse.

(** ** Doubles *)
Section F.
  Variable m : libm.
  Local Notation F := (F64 m).
  Lemma f_is0 : forall x : F, is0 x <-> b2x x = XFin 0.
  Proof.
    intro x. unfold is0. f64. split.
    - destruct x as [| [] | |[] ? ? ?]; try discriminate; auto.
    - intro H. destruct x as [[]|[]| |s mx ex Hx]; try discriminate; auto. exfalso. unfold b2x in H. injection H as H.
      apply eq_0_F2R in H. destruct s; discriminate.
  Qed.
  Lemma f_DZ : forall z b q : F, is0 z -> isnan b = false -> div z b = Ok q -> is0 q.
  Proof.
    intros z b q Hz Nb E. apply f_is0. apply f_is0 in Hz. f64. rewrite f_nan_x in Nb. pose proof (f_div_x z b) as Q. rewrite E, Hz in Q. simpl in Q.
    destruct (b2x b) as [| | |r]; try discriminate; simpl in Q.
    - injection Q as ->. apply fround_0.
    - injection Q as ->. apply fround_0.
    - destruct (Reqb r 0); [discriminate|]. simpl in Q. injection Q as ->. unfold Rdiv. rewrite Rmult_0_l. apply fround_0.
  Qed.
  Lemma f_ABS0 : forall x : F, is0 x -> is0 (absv x).
  Proof. intros x H. apply f_is0. apply f_is0 in H. f64. rewrite b2x_abs, H. simpl. rewrite Rabs_R0. auto. Qed.
  Lemma f_SQ0 : forall x : F, is0 x -> is0 (mul x x).
  Proof. intros x H. apply f_is0. apply f_is0 in H. f64. rewrite f_mul_x, H. simpl. rewrite Rmult_0_l. apply fround_0. Qed.
  Lemma f_ONE : finite (one : F).
  Proof. reflexivity. Qed.
  Lemma f_abs_ge0 : forall x : F, isnan x = false -> leb zero (absv x) = true.
  Proof.
    intros x H. f64. rewrite f_nan_x in H. rewrite f_leb_x, b2x_abs, b2x_zero. destruct (b2x x); try discriminate; auto. simpl. apply Rleb_le, Rabs_pos.
  Qed.
  Lemma x_fround_ge0 : forall r, (0 <= r)%R -> x_leb (XFin 0) (fround r) = true.
  Proof. intros r H. rewrite <- fround_0. apply fround_mono. auto. Qed.
  Lemma f_sq_ge0 : forall x : F, isnan x = false -> leb zero (mul x x) = true.
  Proof.
    intros x H. f64. rewrite f_nan_x in H. rewrite f_leb_x, f_mul_x, b2x_zero. destruct (b2x x) as [| | |r]; try discriminate; auto. simpl. apply x_fround_ge0. nra.
  Qed.
  Lemma f_sqrt_ge0 : forall x : F, leb zero x = true -> exists n, sqrtv x = Ok n /\ leb zero n = true /\ (is0 x -> is0 n).
  Proof.
    intros x H. cbn [sqrtv F64]. pose proof (f_sqrt_x x) as Q.
    assert (G : exists y, x_sqrt (b2x x) = Ok y /\ x_leb (XFin 0) (xround y) = true /\ (b2x x = XFin 0 -> xround y = XFin 0)).
    { f64. rewrite f_leb_x, b2x_zero in H. destruct (b2x x) as [| | |r] eqn:E; try discriminate; simpl in *.
      - exists XPInf. repeat split; intro; discriminate.
      - apply Rleb_le in H. replace (Rltb r 0) with false by (symmetry; unfold Rltb; destruct (Rlt_dec r 0); auto; lra).
        eexists. split; [reflexivity|]. simpl. split; [apply x_fround_ge0, sqrt_pos|].
        intro Z. injection Z as ->. rewrite sqrt_0. apply fround_0. }
    destruct G as (y & Ey & G0 & GZ). rewrite Ey in Q. simpl in Q. destruct (f_sqrt x) as [n|]; [|discriminate]. injection Q as Q.
    exists n. split; auto. rewrite !f_is0. rewrite Q. split; auto. f64. rewrite f_leb_x, b2x_zero, Q. auto.
  Qed.
  Lemma psum_nonneg : forall (h : F -> F) (r : list F), (forall x, isnan x = false -> leb zero (h x) = true) -> Forall (fun x => isnan x = false) r ->
    leb zero (psum (map h r)) = true /\ forall x, In x r -> leb (h x) (psum (map h r)) = true.
  Proof.
    intros h r Hh N. destruct (psum_ge (F64_unit m) (map h r)) as [G1 G2].
    - apply Forall_map. eapply Forall_impl; [|exact N]. auto.
    - split; auto. intros x Hx. apply G2. apply in_map. auto.
  Qed.
  Lemma psum_is0 : forall r : list F, Forall is0 r -> is0 (psum r).
  Proof.
    intros r H. unfold psum. assert (G : forall acc : F, is0 acc -> is0 (fold_left add r acc)).
    { induction H as [|x r Hx H IH]; intros acc Ha; simpl; auto. apply IH. apply f_is0. apply f_is0 in Ha, Hx. rewrite f_add_x, Ha, Hx. simpl. rewrite Rplus_0_r. apply fround_0. }
    apply G. reflexivity.
  Qed.
  (** The l2 norms of rows without NaN exist, are not NaN, and vanish on zero rows. *)
  Lemma l2_norms : forall M : list (list F), Forall (Forall (fun x => isnan x = false)) M ->
    exists ns, mapM (fun row => sqrtv (dotp row row)) M = Ok ns /\ Forall (fun n => leb zero n = true) ns.
  Proof.
    intros M H. induction H as [|row M Hr H (ns & E & IH)]; [exists []; auto|].
    destruct (psum_nonneg (fun x => mul x x) row f_sq_ge0 Hr) as [G _]. destruct (f_sqrt_ge0 _ G) as (n & En & Gn & _).
    exists (n :: ns). cbn [mapM]. rewrite dotp_psum. rewrite En. cbn [bind]. rewrite E. auto.
  Qed.
End F.

(** ** Exact arithmetic *)
Lemma XR_DZ : forall z b q : XR, is0 z -> isnan b = false -> div z b = Ok q -> is0 q.
Proof.
  intros z b q Hz Nb E. unfold is0 in *. rewrite x_zero in *. destruct z as [| | |z]; try discriminate. simpl in Hz. apply Reqb_eq in Hz. subst z.
  destruct b as [| | |b]; try discriminate; simpl in E.
  - injection E as <-. simpl. apply Reqb_eq. auto.
  - injection E as <-. simpl. apply Reqb_eq. auto.
  - destruct (Reqb b 0); [discriminate|]. injection E as <-. simpl. apply Reqb_eq. unfold Rdiv. apply Rmult_0_l.
Qed.

Definition unitise (nrm : list R -> R) (row : list R) : list R :=
  if Reqb (nrm row) 0 then row else map (fun x => (x / nrm row)%R) row.

Lemma Rl1_pos : forall row, (0 <= Rl1 row)%R.
Proof. intro row. apply Rsum_pos. apply Forall_map, Forall_forall. intros; apply Rabs_pos. Qed.
Lemma Rdot_self_pos : forall row, (0 <= Rdot row row)%R.
Proof. induction row as [|x row IH]; simpl; [lra|]. nra. Qed.
Lemma Rl2_pos : forall row, (0 <= Rl2 row)%R.
Proof. intro. apply sqrt_pos. Qed.
Lemma Rl1_scale : forall row k, (0 <= k)%R -> Rl1 (map (fun x => x * k)%R row) = (Rl1 row * k)%R.
Proof. intros row k Hk. unfold Rl1. induction row as [|x row IH]; simpl; [lra|]. rewrite IH, Rabs_mult, (Rabs_pos_eq k) by auto. lra. Qed.
Lemma Rl2_scale : forall row k, (0 <= k)%R -> Rl2 (map (fun x => x * k)%R row) = (Rl2 row * k)%R.
Proof.
  intros row k Hk. unfold Rl2. replace (Rdot _ _) with (Rdot row row * (k * k))%R.
  - rewrite sqrt_mult_alt by apply Rdot_self_pos. rewrite sqrt_square; auto.
  - induction row as [|x row IH]; simpl; [lra|]. rewrite <- IH. lra.
Qed.
Lemma unitise_ok : forall nrm row, (forall r, 0 <= nrm r)%R -> (forall r k, (0 <= k)%R -> nrm (map (fun x => x * k)%R r) = (nrm r * k)%R) ->
  unit_row nrm row (unitise nrm row).
Proof.
  intros nrm row P S. unfold unit_row, unitise. split; intro H.
  - rewrite H. replace (Reqb 0 0) with true by (symmetry; apply Reqb_eq; auto). auto.
  - replace (Reqb (nrm row) 0) with false by (symmetry; apply Reqb_neq; auto). pose proof (P row).
    assert (K : (0 < / nrm row)%R) by (apply Rinv_0_lt_compat; lra).
    split.
    + unfold Rdiv. rewrite S by lra. apply Rinv_r. auto.
    + exists (/ nrm row)%R. auto.
Qed.

Lemma divided_unitise : forall nrm row, divided_by (A:=XR) (XFin (nrm row)) (fins row) (fins (unitise nrm row)).
Proof.
  intros nrm row. unfold divided_by, unitise. rewrite x_zero. cbn [eqb XR x_eqb]. destruct (Reqb (nrm row) 0) eqn:E.
  - apply Forall2_diag. intros x Hx. apply in_map_iff in Hx. destruct Hx as (r & <- & _). rewrite x_one, x_div_fin by lra. unfold Rdiv. rewrite Rinv_1, Rmult_1_r. auto.
  - apply Reqb_neq in E. unfold fins. rewrite map_map, Forall2_map_l, Forall2_map_r. apply Forall2_diag. intros x _. apply x_div_fin. auto.
Qed.

Lemma norms_l1_XR : forall M, norms_of (ll (finss M)) (lit "l1") = Ok (map (fun r => XFin (Rl1 r) : XR) M).
Proof.
  intro M. rewrite norms_l1. f_equal. unfold finss. rewrite map_map. apply map_ext. intro row. unfold Rl1. rewrite <- psum_fins. f_equal. unfold fins. rewrite !map_map. reflexivity.
Qed.
Lemma norms_l2_XR : forall M r c, rect M r c -> 1 <= r -> norms_of (ll (finss M)) (lit "l2") = Ok (map (fun r => XFin (Rl2 r) : XR) M).
Proof.
  intros M r c HR Hr. rewrite (norms_l2 (finss M) r c) by (auto; apply rect_finss; auto). unfold finss. rewrite mapM_map. apply (mapM_pure _ (fun r => XFin (Rl2 r) : XR)).
  intros row _. rewrite dotp_fins. cbn [sqrtv XR x_sqrt]. replace (Rltb (Rdot row row) 0) with false; auto. symmetry. unfold Rltb. destruct (Rlt_dec _ _); auto. pose proof (Rdot_self_pos row). lra.
Qed.
Lemma normalize_XR : forall norm nrm M, M <> [] -> (norm_name norm) -> norms_of (ll (finss M)) norm = Ok (map (fun r => XFin (nrm r) : XR) M) ->
  normalize_pure (ll (finss M)) norm 1 = Ok (ll (finss (map (unitise nrm) M))).
Proof.
  intros norm nrm M N HN E. apply normalize_rows; auto; [destruct M; [congruence|discriminate]|].
  exists (map (fun r => XFin (nrm r) : XR) M), (finss (map (unitise nrm) M)). split; auto. unfold finss. rewrite !map_length. split; auto. split; auto. split; auto.
  intros i row n d Hr Hn Hd. rewrite !nth_error_map' in *. destruct (nth_error M i) as [r|]; [|discriminate]. simpl in *. injection Hr as <-. injection Hn as <-. injection Hd as <-.
  apply divided_unitise.
Qed.

Lemma mapM_seq_err : forall {B} (f : nat -> res B) e n c, n < c -> (forall i, i < n -> exists y, f i = Ok y) -> f n = Err e -> mapM f (range c) = Err e.
Proof.
  intros B f e n c Hc H E. apply mapM_err. exists (seq 0 n), n, (seq (S n) (c - S n)). split; [|split; auto].
  - unfold range. replace c with (n + S (c - S n)) at 1 by lia. rewrite seq_app. reflexivity.
  - intros y Hy. apply in_seq in Hy. apply H. lia.
Qed.
Lemma row_short : forall {A : arith} (f : nat -> A -> res A) (row : list A) c, length row < c -> (forall i x, i < c -> exists v, f i x = Ok v) ->
  mapM (fun i => v <- item_get (Ls row) (Z.of_nat i) ;; f i v) (range c) = Err IndexError.
Proof.
  intros A f row c L H. apply (mapM_seq_err _ _ (length row)); auto.
  - intros i Hi. cbn [item_get]. rewrite lget_nat. destruct (lnth_lt row i Hi) as (x & -> & _). cbn [bind]. apply H. lia.
  - cbn [item_get]. rewrite lget_nat. unfold lnth. replace (nth_error row (length row)) with (@None A); [reflexivity|]. symmetry. apply nth_error_None. lia.
Qed.
Lemma rows_short : forall {A : arith} (f : nat -> A -> res A) (M : list (list A)) r c' c, rect M r c' -> 1 <= r -> c' < c -> (forall i x, i < c -> exists v, f i x = Ok v) ->
  mapM (fun row => mapM (fun i => v <- item_get row (Z.of_nat i) ;; f i v) (range c)) (map Ls M) = Err IndexError.
Proof.
  intros A f M r c' c [LM RM] Hr Hc H. destruct M as [|row M]; [simpl in LM; lia|]. cbn [map mapM]. inversion RM; subst. rewrite row_short; auto.
Qed.
(** axis = 0 is axis = 1 between two transpositions. *)
Lemma normalize_axis0 : forall {A : arith} norm (M : list (list A)) r c, norm_name norm -> rect M r c -> 1 <= r -> 1 <= c ->
  normalize_pure (ll M) norm 0 = (Y <- normalize_pure (ll (zipstar M)) norm 1 ;; T <- transpose Y ;; Ok (ll T)).
Proof.
  intros A norm M r c HN HR Hr Hc. unfold normalize_pure, normalize_full.
  assert (G : mem str_eqb norm [lit "l1"; lit "l2"; lit "max"] = true) by (destruct HN as [->|[->| ->]]; reflexivity).
  rewrite G. cbn [guard Z.eqb Pos.eqb andb negb orb bind issparse ll]. change (Arr (map Ls M)) with (ll M). change (Arr (map Ls (zipstar M))) with (ll (zipstar M)).
  rewrite check_ll by (destruct HR; destruct M; [simpl in *; lia|discriminate]).
  pose proof (zipstar_nth M r c HR Hr) as [[RZ _] _].
  rewrite check_ll by (destruct (zipstar M); [simpl in *; lia|discriminate]).
  cbn [bind]. rewrite transpose_ll. cbn [bind issparse ll andb negb guard]. destruct (norms_of _ _) as [ns|]; cbn [bind]; auto.
  destruct (scale_rows _ _) as [X3|]; cbn [bind]; auto. cbn [fst bind]. destruct (transpose X3) as [T|]; reflexivity.
Qed.
Lemma zipstar_map : forall {S T} (f : S -> T) (M : list (list S)), zipstar (map (map f) M) = map (map f) (zipstar M).
Proof.
  intros S T f M. induction M as [|row M IH]; auto. destruct M as [|row2 M].
  - cbn [map zipstar]. rewrite !map_map. reflexivity.
  - change (map (map f) (row :: row2 :: M)) with (map f row :: map f row2 :: map (map f) M). 
    change (zipstar (map f row :: map f row2 :: map (map f) M)) with (zip_with cons (map f row) (zipstar (map (map f) (row2 :: M)))). rewrite IH.
    change (zipstar (row :: row2 :: M)) with (zip_with cons row (zipstar (row2 :: M))).
    generalize (zipstar (row2 :: M)). clear. induction row as [|x row IH]; intros [|z Z]; simpl; auto. f_equal. apply IH.
Qed.
Lemma zipstar_column : forall (M : list (list R)) r c j, rect M r c -> 1 <= r -> j < c -> nth_error (zipstar M) j = Some (Rcolumn M j).
Proof.
  intros M r c j HR Hr Hj. destruct (zipstar_nth M r c HR Hr) as [[LZ RZ] HC].
  destruct (nth_error (zipstar M) j) as [col|] eqn:E; [|apply nth_error_None in E; lia]. f_equal. apply list_eq_nth. intro i.
  unfold Rcolumn. rewrite nth_error_map'. rewrite Forall_forall in RZ. pose proof (RZ col ltac:(eapply nth_error_In; eauto)) as Lc.
  destruct HR as [LM RM]. destruct (Nat.lt_ge_cases i r).
  - specialize (HC i j ltac:(lia) Hj). unfold cell in HC. rewrite E in HC. rewrite HC. destruct (nth_error M i) as [row|] eqn:Er; [|apply nth_error_None in Er; lia]. simpl.
    rewrite Forall_forall in RM. apply nth_error_nth'. rewrite (RM row); eauto using nth_error_In.
  - destruct (nth_error M i) eqn:Er; [assert (i < length M) by (apply nth_error_Some; congruence); lia|]. simpl. apply nth_error_None. lia.
Qed.
(** A matrix obtained by transposing [map f (zipstar M)] has columns [f (column of M)]. *)
Lemma columns_back : forall (M N : list (list R)) r c (f : list R -> list R), rect M r c -> 1 <= r -> 1 <= c -> (forall l, length (f l) = length l) ->
  N = zipstar (map f (zipstar M)) -> rect N r c /\ forall j, j < c -> Rcolumn N j = f (Rcolumn M j).
Proof.
  intros M N r c f HR Hr Hc Hf ->. destruct (zipstar_nth M r c HR Hr) as [RZ _].
  assert (RF : rect (map f (zipstar M)) c r).
  { destruct RZ as [LZ RZ]. split; [rewrite map_length; auto|]. apply Forall_map. eapply Forall_impl; [|exact RZ]. intros l Hl. rewrite Hf. auto. }
  destruct (zipstar_nth _ c r RF Hc) as [RN _]. split; auto. intros j Hj.
  pose proof (zipstar_column _ r c j RN Hr Hj) as Q. rewrite (zipstar_invol _ c r RF Hc Hr) in Q. rewrite nth_error_map', (zipstar_column M r c j HR Hr Hj) in Q. simpl in Q. congruence.
Qed.

(** ** Divisions of doubles *)
Lemma fround_1 : fround 1 = XFin 1.
Proof. apply (fround_IZR 1). lia. Qed.
Section FD.
  Variable m : libm.
  Local Notation F := (F64 m).
  Lemma f_pos_fin : forall n : F, finite n -> ltb zero n = true -> exists r, b2x n = XFin r /\ (0 < r)%R.
  Proof.
    intros n Fn Hn. unfold finite in Fn. f64. apply f_fin_iff in Fn. destruct Fn as [r E]. exists r. split; auto. rewrite f_ltb_x, E, b2x_zero in Hn. simpl in Hn. apply Rltb_lt in Hn. auto.
  Qed.
  Lemma f_div_pos : forall x n : F, ltb zero n = true -> finite n -> exists y, div x n = Ok y /\ keeps_sign x y.
  Proof.
    intros x n Hn Fn. destruct (f_pos_fin n Fn Hn) as (r & E & Hr). pose proof (f_div_x x n) as Q.
    assert (R0 : Reqb r 0 = false) by (apply Reqb_neq; lra). assert (R1 : Rltb r 0 = false) by (apply Rltb_ge; lra).
    unfold keeps_sign. f64. destruct (f_div x n) as [y|].
    2:{ rewrite E in Q. destruct (b2x x); simpl in Q; rewrite R0 in Q; discriminate. }
    exists y. split; auto. rewrite !f_leb_x, b2x_zero. destruct (b2x x) as [| | |a]; rewrite E in Q; simpl in Q; rewrite R0 in Q; simpl in Q; unfold x_inf_times in Q; rewrite ?R0, ?R1 in Q; injection Q as ->; simpl; split; intro H; auto; try discriminate.
    - apply x_fround_ge0. apply Rleb_le in H. apply Rmult_le_pos; auto. left. apply Rinv_0_lt_compat; auto.
    - rewrite <- fround_0. apply fround_mono. apply Rleb_le in H. unfold Rdiv. assert (0 < / r)%R by (apply Rinv_0_lt_compat; auto). nra.
  Qed.
  Lemma f_div_unit : forall x n : F, ltb zero n = true -> finite n -> leb (absv x) n = true ->
    exists y, div x n = Ok y /\ keeps_sign x y /\ leb (absv y) one = true.
  Proof.
    intros x n Hn Fn L. destruct (f_div_pos x n Hn Fn) as (y & Ey & K). exists y. split; auto. split; auto.
    destruct (f_pos_fin n Fn Hn) as (r & E & Hr). pose proof (f_div_x x n) as Q. rewrite E in Q. f64. rewrite Ey in Q.
    rewrite f_leb_x, b2x_abs, E in L. rewrite f_leb_x, b2x_abs, b2x_one. destruct (b2x x) as [| | |a]; try discriminate. simpl in Q, L.
    assert (R0 : Reqb r 0 = false) by (apply Reqb_neq; lra). rewrite R0 in Q. simpl in Q. injection Q as ->. apply Rleb_le in L.
    assert (B : (-1 <= a / r <= 1)%R).
    { assert (0 < / r)%R by (apply Rinv_0_lt_compat; auto). assert (r * / r = 1)%R by (apply Rinv_r; lra). unfold Rdiv. apply Rabs_le_inv in L. split; nra. }
    assert (U : x_leb (fround (a / r)) (XFin 1) = true) by (rewrite <- fround_1; apply fround_mono; lra).
    assert (D : x_leb (XFin (-1)) (fround (a / r)) = true) by (rewrite <- (fround_IZR (-1)) by lia; apply fround_mono; lra).
    destruct (fround (a / r)) as [| | |q]; try discriminate. simpl in *. apply Rleb_le in U, D. apply Rleb_le. apply Rabs_le. lra.
  Qed.
  Lemma f_div_self : forall n : F, ltb zero n = true -> finite n -> exists y, div n n = Ok y /\ eqb y one = true.
  Proof.
    intros n Hn Fn. destruct (f_div_pos n n Hn Fn) as (y & Ey & _). exists y. split; auto.
    destruct (f_pos_fin n Fn Hn) as (r & E & Hr). pose proof (f_div_x n n) as Q. rewrite E in Q. f64. rewrite Ey in Q. simpl in Q.
    assert (R0 : Reqb r 0 = false) by (apply Reqb_neq; lra). rewrite R0 in Q. simpl in Q. replace (r / r)%R with 1%R in Q by (field; lra). rewrite fround_1 in Q. injection Q as Q.
    rewrite f_eqb_x, b2x_one, Q. simpl. apply Reqb_eq. auto.
  Qed.
  Lemma f_div_one : forall x : F, is0 x -> div x one = Ok x.
  Proof. intros x H. unfold is0 in H. change (zero : F) with (B754_zero false : f64) in H. apply f_eqb_zero in H. destruct H as [[] ->]; reflexivity. Qed.
  Lemma f_affine_mono : forall a x s b : F, finite a -> finite x -> finite s -> finite b -> leb zero s = true -> leb a x = true ->
    leb (add (mul a s) b) (add (mul x s) b) = true.
  Proof.
    intros a x s b Fa Fx Fs Fb Hs L. unfold finite in *. f64. apply f_fin_iff in Fa, Fx, Fs, Fb. destruct Fa as [ra Ea], Fx as [rx Ex], Fs as [rs Es], Fb as [rb Eb].
    rewrite f_leb_x, b2x_zero, Es in Hs. rewrite f_leb_x, Ea, Ex in L. simpl in Hs, L. apply Rleb_le in Hs, L.
    rewrite f_leb_x, !f_add_x, !f_mul_x, Ea, Ex, Es, Eb. apply xround_mono. simpl.
    assert (Q : x_leb (fround (ra * rs)) (fround (rx * rs)) = true) by (apply fround_mono; nra).
    assert (NN : forall z, fround z <> XNaN) by (intros z Hz; pose proof (xround_nan (XFin z)) as N; simpl in N; rewrite Hz in N; discriminate).
    pose proof (NN (ra * rs)%R). pose proof (NN (rx * rs)%R).
    destruct (fround (ra * rs)), (fround (rx * rs)); simpl in *; try congruence; auto. apply Rleb_le in Q. apply Rleb_le. lra.
  Qed.
End FD.

Lemma with_norms : forall {S T U} (P : S -> T -> Prop) (R : T -> S -> U -> Prop) (M : list S) (D : list U),
  Forall2 (fun row d => exists n, P row n /\ R n row d) M D <->
  exists ns, Forall2 P M ns /\ length D = length M /\ forall i row n d, nth_error M i = Some row -> nth_error ns i = Some n -> nth_error D i = Some d -> R n row d.
Proof.
  intros S T U P R M D. split.
  - intro H. induction H as [|row d M D (n & Hn & Hr) H (ns & I1 & I2 & I3)]; [exists []; repeat split; auto; intros [|i]; discriminate|].
    exists (n :: ns). split; [constructor; auto|]. split; [simpl; congruence|]. intros [|i] row' n' d' E1 E2 E3; simpl in *; [congruence|eauto].
  - intros (ns & H & L & Q). revert D L Q. induction H as [|row n M ns Hn H IH]; intros [|d D] L Q; simpl in L; try discriminate; constructor.
    + exists n. split; auto. apply (Q 0); auto.
    + apply IH; auto. intros i row' n' d'. apply (Q (Datatypes.S i)).
Qed.

(** ** Normalising doubles *)
Section FN.
  Variable m : libm.
  Local Notation F := (F64 m).
  Definition hz (n : F) : F := if eqb n zero then one else n.
  Lemma hz_ok : forall n : F, leb zero n = true -> ltb zero (hz n) = true.
  Proof.
    intros n H. unfold hz. destruct (eqb n zero) eqn:E; [reflexivity|]. rewrite (o_leb _ (F64_ord m)) in H. apply orb_true_iff in H. destruct H as [H|H]; [exact H|].
    rewrite (o_sym _ (F64_ord m)) in H. congruence.
  Qed.
  Lemma hz_fin : forall n : F, finite n -> finite (hz n).
  Proof. intros n H. unfold hz. destruct (eqb n zero); auto. apply f_ONE. Qed.
  Lemma pos_nan : forall n : F, ltb zero n = true -> isnan n = false /\ eqb n zero = false.
  Proof.
    intros n H. split; [apply (o_lt_nan _ (F64_ord m)) in H; tauto|]. destruct (eqb n zero) eqn:E; auto. rewrite (o_eq_lt_r _ (F64_ord m) _ _ _ E) in H. rewrite (o_irr _ (F64_ord m)) in H. discriminate.
  Qed.
  Lemma abs_nan : forall x : F, isnan (absv x) = isnan x.
  Proof. intros []; reflexivity. Qed.
  Lemma abs_le0 : forall x n : F, leb (absv x) n = true -> is0 n -> is0 x.
  Proof.
    intros x n H Z. apply f_is0. apply f_is0 in Z. f64. rewrite f_leb_x, Z, b2x_abs in H. destruct (b2x x) as [| | |r]; try discriminate. simpl in H. apply Rleb_le in H.
    f_equal. destruct (Req_dec r 0) as [->|N]; auto. pose proof (Rabs_pos_lt r N). lra.
  Qed.
  (** Rows divided by handled norms: dense and sparse together. *)
  Lemma normalize_both : forall norm (M : list (list F)) ns, norm_name norm -> M <> [] -> norms_of (ll M) norm = Ok ns -> length ns = length M ->
    Forall (fun n => ltb zero (hz n) = true) ns ->
    exists D, normalize_pure (ll M) norm 1 = Ok (ll D) /\ length D = length M /\
      (forall i row n d, nth_error M i = Some row -> nth_error ns i = Some n -> nth_error D i = Some d -> divided_by n row d) /\
      (forall rows sz dt ns', Forall2 stores rows M -> norms_of (Sp rows sz dt) norm = Ok ns' -> map hz ns' = map hz ns ->
         exists rows', normalize_pure (Sp rows sz dt) norm 1 = Ok (Sp rows' sz dt) /\ Forall2 stores rows' D /\ map (map fst) rows' = map (map fst) rows).
  Proof.
    intros norm M ns HN NM E L P.
    assert (DX : exists D, length D = length M /\ forall i row n d, nth_error M i = Some row -> nth_error ns i = Some n -> nth_error D i = Some d -> divided_by n row d).
    { clear E NM. revert ns L P. induction M as [|row M IH]; intros [|n ns] L P; try discriminate.
      - exists []. split; auto. intros [|i]; discriminate.
      - inversion P as [|? ? Pn P']; subst. destruct (IH ns) as (D & LD & HD); auto.
        assert (R : exists d, divided_by n row d).
        { destruct (mapM_total (fun x : F => div x (hz n)) row) as [d Ed]; [intros x _; apply (u_div_ok _ (F64_unit m)); apply (pos_nan _ Pn)|]. exists d. apply mapM_Forall2 in Ed. exact Ed. }
        destruct R as [d Hd]. exists (d :: D). split; [cbn [length]; congruence|]. intros [|i] row' n' d' E1 E2 E3; [injection E1 as <-; injection E2 as <-; injection E3 as <-; auto|]. exact (HD i row' n' d' E1 E2 E3). }
    destruct DX as (D & LD & HD). exists D. split; [apply normalize_rows; auto; exists ns, D; auto|]. split; auto. split; auto.
    intros rows sz dt ns' ST E' H'. pose proof (Forall2_len _ _ _ ST) as LR.
    assert (NR : rows <> []) by (destruct rows; [destruct M; [congruence|discriminate]|discriminate]).
    destruct (scale_sparse (f_DZ m) rows sz dt M D (map hz ns) ST NR) as (rows' & ES & S' & K'); auto.
    - rewrite map_length; auto.
    - apply Forall_map. eapply Forall_impl; [|exact P]. intros n Hn. apply (pos_nan _ Hn).
    - intros i row n d H1 H2 H3. rewrite nth_error_map' in H2. destruct (nth_error ns i) as [n0|] eqn:En; [|discriminate]. injection H2 as <-. exact (HD i row n0 d H1 En H3).
    - exists rows'. split; auto. unfold normalize_pure, normalize_full.
      assert (G : mem str_eqb norm [lit "l1"; lit "l2"; lit "max"] = true) by (destruct HN as [->|[->| ->]]; reflexivity).
      rewrite G. cbn [guard Z.eqb Pos.eqb andb negb orb bind issparse]. rewrite check_sp. cbn [bind issparse andb negb guard].
      rewrite E'. cbn [bind]. assert (Q : handle_zeros ns' = map hz ns) by exact H'. rewrite Q, ES. reflexivity.
  Qed.
  Lemma divided_unit : forall (n : F) row d, divided_by n row d -> leb zero n = true -> finite n -> (forall x, In x row -> leb (absv x) n = true) ->
    into_unit row d.
  Proof.
    intros n row d H P Fn B. pose proof (hz_ok n P) as Ph. pose proof (hz_fin n Fn) as Fh. split.
    - apply Forall2_nth_error. apply Forall2_nth_error in H. destruct H as [L H]. split; auto. intros j x y Hx Hy. specialize (H j x y Hx Hy).
      destruct (f_div_unit m x (hz n) Ph Fh) as (y' & E & K1 & K2).
      + pose proof (B x (nth_error_In _ _ Hx)) as Bx. unfold hz. destruct (eqb n zero) eqn:Z; auto. apply (leb_trans (F64_ord m)) with n; auto.
        apply (leb_trans (F64_ord m)) with zero; [apply (eqb_leb (F64_ord m)); auto|reflexivity].
      + assert (Q : div x (hz n) = Ok y) by exact H. rewrite Q in E. injection E as <-. auto.
    - intro Z. assert (Zn : row <> [] -> d = row); [|destruct row; [inversion H; auto|apply Zn; discriminate]].
      intros _. clear B. assert (G : hz n = one -> d = row).
      { intro Q. unfold divided_by in H. fold (hz n) in H. rewrite Q in H. clear - H Z. induction H as [|x y row d Hxy H IH]; auto. inversion Z; subst. rewrite f_div_one in Hxy by auto. injection Hxy as <-. f_equal. auto. }
      destruct (eqb n zero) eqn:E; [apply G; unfold hz; rewrite E; auto|].
      (* n is not zero: zeros divided by a positive number *)
      assert (Hn : hz n = n) by (unfold hz; rewrite E; auto). rewrite Hn in *. clear - H Z Ph Fh E. 
      unfold divided_by in H. induction H as [|x y row d Hxy H IH]; auto. inversion Z as [|? ? Zx Z']; subst. f_equal; auto.
      rewrite E in Hxy. unfold is0 in Zx. change (zero : F) with (B754_zero false : f64) in Zx. apply f_eqb_zero in Zx. destruct Zx as [s ->].
      f64. rewrite f_ltb_x, b2x_zero in Ph. destruct n as [|[]| |[] ? ? ?]; try discriminate; try (simpl in Hxy; injection Hxy as <-; destruct s; reflexivity).

      exfalso. apply Rltb_lt in Ph. simpl in Ph. revert Ph. apply Rle_not_lt. apply F2R_le_0. simpl. lia.
  Qed.

  Lemma eqb_same : forall x y : F, eqb x y = true -> eqb y zero = false -> x = y.
  Proof.
    intros x y H Z. f64. rewrite f_eqb_x in H. assert (B : b2x x = b2x y).
    { destruct (b2x x), (b2x y); simpl in H; try discriminate; auto. apply Reqb_eq in H. congruence. }
    destruct (b2x_inj x y B) as [|(s & t & -> & ->)]; auto. destruct t; discriminate.
  Qed.
  Lemma max_zero : forall l : list F, (forall w, In w l -> isnan w = false) -> l <> [] -> exists v, pymax gtb l = Ok v /\ In v l /\ isnan v = false /\ forall w, In w l -> leb w v = true.
  Proof.
    intros [|h t] N NE; [congruence|]. destruct (pymax_from_spec (F64_ord m) t h (N h (or_introl eq_refl))) as (N1 & I & Mx).
    exists (pymax_from gtb h t). split; auto. split; auto. split; auto. intros w Hw. apply (nltb_leb (F64_ord m)); auto.
  Qed.
  Lemma leb_abs : forall x : F, isnan x = false -> leb x (absv x) = true.
  Proof.
    intros x N. f64. rewrite f_nan_x in N. rewrite f_leb_x, b2x_abs. destruct (b2x x); try discriminate; auto. simpl. apply Rleb_le. apply Rle_abs.
  Qed.
  Lemma max_norm : forall row : list F, dominated row -> exists v, pymax gtb row = Ok v /\ leb zero v = true /\ finite v /\
    (forall x, In x row -> leb (absv x) v = true) /\ In v row /\
    (forall d, stores d row -> exists v', pymax gtb (dvalues d ++ [zero]) = Ok v' /\ hz v' = hz v).
  Proof.
    intros row (mx & I & Fm & B).
    assert (NN : forall w, In w row -> isnan w = false) by (intros w Hw; apply B in Hw; apply (leb_nan (F64_ord m)) in Hw; rewrite abs_nan in Hw; tauto).
    destruct (max_zero row NN) as (v & Ev & Iv & Nv & Mv); [intros ->; destruct I|].
    assert (V1 : leb v mx = true) by (apply (leb_trans (F64_ord m)) with (absv v); [apply leb_abs; auto|apply B; auto]).
    assert (V2 : leb mx v = true) by (apply Mv; auto).
    assert (BV : forall x, In x row -> leb (absv x) v = true) by (intros x Hx; apply (leb_trans (F64_ord m)) with mx; auto).
    assert (PV : leb zero v = true) by (apply (leb_trans (F64_ord m)) with (absv v); [apply f_abs_ge0; auto|apply BV; auto]).
    exists v. split; auto. split; auto. split.
    { clear - V1 V2 Fm. unfold finite in *. f64. apply f_fin_iff in Fm. apply f_fin_iff. destruct Fm as [r E]. rewrite f_leb_x, E in V1, V2. destruct (b2x v); try discriminate. eauto. }
    split; auto. split; auto. intros d (ND & Kd & Sd).
    assert (DV : forall w, In w (dvalues d) -> In w row).
    { intros w Hw. unfold dvalues in Hw. apply in_map_iff in Hw. destruct Hw as ([k w'] & <- & Hk). cbn [snd].
      pose proof (Kd k (in_map fst _ _ Hk)) as Bk. destruct (nth_error row (Z.to_nat k)) as [x|] eqn:Ex.
      - destruct (Sd _ _ Ex) as [(w & Hw & ->)|[Hn _]]; rewrite Z2Nat.id in * by lia.
        + assert (w' = x). { clear - ND Hk Hw. induction d as [|[k0 v0] d IH]; [destruct Hk|]. inversion ND; subst. simpl in *. destruct Hk as [Hk|Hk], Hw as [Hw|Hw]; try congruence; auto.
            - injection Hk as -> ->. exfalso. apply H1. apply (in_map fst) in Hw. auto.
            - injection Hw as -> ->. exfalso. apply H1. apply (in_map fst) in Hk. auto. }
          subst. eapply nth_error_In; eauto.
        + exfalso. apply Hn. apply (in_map fst) in Hk. auto.
      - apply nth_error_None in Ex. lia. }
    destruct (max_zero (dvalues d ++ [zero])) as (v' & Ev' & Iv' & Nv' & Mv').
    { intros w Hw. apply in_app_iff in Hw. destruct Hw as [Hw|[<-|[]]]; auto. }
    { destruct (dvalues d); discriminate. }
    exists v'. split; auto.
    assert (L1 : leb v' v = true) by (apply in_app_iff in Iv'; destruct Iv' as [Iv'|[<-|[]]]; auto).
    assert (L2 : leb zero v' = true) by (apply Mv', in_app_iff; right; left; auto).
    unfold hz. destruct (eqb v zero) eqn:Z.
    - assert (Z' : eqb v' zero = true). { apply (leb_antisym (F64_ord m)); auto. apply (leb_trans (F64_ord m)) with v; auto. apply (eqb_leb (F64_ord m)); auto. }
      rewrite Z'. auto.
    - assert (L3 : leb v v' = true).
      { apply Mv', in_app_iff. left. apply In_nth_error in Iv. destruct Iv as [j Hj]. destruct (Sd _ _ Hj) as [(w & Hw & ->)|[_ Hz]]; [|unfold is0 in Hz; congruence].
        unfold dvalues. apply (in_map snd) in Hw. exact Hw. }
      pose proof (leb_antisym (F64_ord m) _ _ L1 L3) as Q. rewrite (eqb_same _ _ Q Z), Z. auto.
  Qed.
End FN.
Lemma sqrt_fin : forall (x n : f64) s, b2x x = XFin s -> f_sqrt x = Ok n -> exists r, b2x n = XFin r.
Proof.
  intros x n s E En. pose proof (f_sqrt_x x) as S. rewrite E, En in S. simpl in S. destruct (Rltb s 0) eqn:L; [discriminate|]. apply Rltb_ge in L. injection S as S. rewrite S.
  assert (FS : fround s = XFin s) by (pose proof (xround_b2x x) as Q; rewrite E in Q; exact Q).
  assert (B : (sqrt s <= Rmax 1 s)%R).
  { destruct (Rle_dec s 1) as [H|H].
    - apply Rle_trans with 1%R; [|apply Rmax_l]. rewrite <- sqrt_1. apply sqrt_le_1_alt. auto.
    - apply Rle_trans with s; [|apply Rmax_r]. rewrite <- (sqrt_square s) at 2 by lra. apply sqrt_le_1_alt. nra. }
  assert (U : x_leb (fround (sqrt s)) (XFin (Rmax 1 s)) = true).
  { replace (XFin (Rmax 1 s)) with (fround (Rmax 1 s)); [apply fround_mono; auto|]. unfold Rmax. destruct (Rle_dec 1 s); auto. apply fround_1. }
  pose proof (x_fround_ge0 (sqrt s) (sqrt_pos s)) as P. destruct (fround (sqrt s)); try discriminate. eauto.
Qed.
