(** Elementwise product, column slices, softmax and safe log/exp. *)
From Coq Require Import Reals Lra.
From Flocq Require Import Core BinarySingleNaN.
From Verif Require Import Model.Py Model.Arith Model.F64 Model.XR Model.Utils Model.Base
  Spec.Matrix Spec.Libm Spec.Reals
  Proofs.Lib Proofs.Laws Proofs.Round Proofs.Unit Proofs.CRLibm Proofs.Arrays.

Section Gen.
  Context {A : arith} (OK : arith_ok A).

  Lemma shape_ll : forall (M : list (list A)) r c, rect M r c -> 1 <= r ->
    shape (ll M) = Ok (S2 (Z.of_nat r) (Some (Z.of_nat c))).
  Proof.
    intros M r c HR H1. destruct M as [|x M]; [destruct HR as [H _]; simpl in H; lia|].
    pose proof (rect_row _ _ _ x HR (or_introl eq_refl)) as L.
    destruct HR as [HL _]. unfold shape, ll. cbn [items bind map]. 
    do 2 f_equal; [rewrite <- HL; cbn [length]; rewrite map_length; auto|]. do 2 f_equal. exact L.
  Qed.

  Lemma row_get_all : forall (a b : list A) c, length a = c -> length b = c ->
    mapM (fun j => va <- item_get (Ls a) j ;; vb <- item_get (Ls b) j ;; Ok (mul va vb)) (zrange 0 (Z.of_nat c))
    = Ok (zip_with mul a b).
  Proof.
    intros a b c <- Lb. rewrite zrange_nat, mapM_map. simpl.
    rewrite (mapM_ext _ (fun i => x <- lnth a i ;; y <- lnth b i ;; Ok (mul x y))) by (intros; rewrite !lget_nat; auto).
    fold (range (length a)). rewrite (mapM_range_nth2 a b (fun x y => Ok (mul x y))) by auto.
    rewrite mapM_Ok, zip_with_combine. auto.
  Qed.

  Lemma matmult_dense : forall (M N : list (list A)) r c, rect M r c -> rect N r c -> 1 <= r ->
    matmult_same_dim (ll M) (ll N) = Ok (ll (zip_with (zip_with mul) M N)).
  Proof.
    intros M N r c HM HN H1. unfold matmult_same_dim.
    rewrite (shape_ll M r c), (shape_ll N r c) by auto. cbn [bind shp_eqb]. rewrite !Z.eqb_refl. 
    cbn [andb guard bind]. unfold ll at 1 2. cbn [issparse Bool.eqb bind guard].
    unfold ll at 1 2. cbn [items bind]. unfold ll. cbn [items bind].
    rewrite Nat2Z.id. destruct HM as [LM FM], HN as [LN FN].
    assert (E : mapM (fun i => a <- lnth (map Ls M) i ;; b <- lnth (map Ls N) i ;;
              mapM (fun j => va <- item_get a j ;; vb <- item_get b j ;; Ok (mul va vb)) (zrange 0 (Z.of_nat c))) (range r)
              = Ok (zip_with (zip_with mul) M N)).
    { rewrite <- LM at 1. rewrite <- (map_length Ls M).
      rewrite (mapM_range_nth2 (map Ls M) (map Ls N) (fun a b => mapM (fun j => va <- item_get a j ;; vb <- item_get b j ;; Ok (mul va vb)) (zrange 0 (Z.of_nat c)))) by (rewrite !map_length; lia).
      rewrite zip_with_combine. rewrite Forall_forall in FM, FN.
      assert (EC : combine (map Ls M) (map Ls N) = map (fun p => (Ls (fst p), Ls (snd p))) (combine M N)).
      { clear. revert N; induction M as [|x M IH]; intros [|y N]; simpl; auto. f_equal; auto. }
      rewrite EC, mapM_map. apply mapM_pure. intros [a b] Hin. cbn [fst snd].
      apply row_get_all; [apply FM; eapply in_combine_l; eauto | apply FN; eapply in_combine_r; eauto]. }
    rewrite E. reflexivity.
  Qed.

  (** ** sparse product *)
  Definition prod_items (a b : dict Z A) : list (Z * A) :=
    concat (map (fun kva => map (fun kvb => (fst kvb, mul (snd kva) (snd kvb)))
                          (filter (fun kvb => (fst kvb =? fst kva)%Z) b)) a).

  Lemma prod_in : forall a b k v, In (k, v) (prod_items a b) <->
    exists va vb, In (k, va) a /\ In (k, vb) b /\ v = mul va vb.
  Proof.
    intros a b k v. unfold prod_items. rewrite in_concat. split.
    - intros (l & Hl & Hin). apply in_map_iff in Hl. destruct Hl as ([ka va] & <- & Ha).
      apply in_map_iff in Hin. destruct Hin as ([kb vb] & E & Hb). simpl in *. inversion E; subst.
      apply filter_In in Hb. destruct Hb as [Hb Ek]. simpl in Ek. apply Z.eqb_eq in Ek. subst. eauto.
    - intros (va & vb & Ha & Hb & ->). eexists. split; [apply in_map; exact Ha|].
      apply in_map_iff. exists (k, vb). split; auto. apply filter_In. split; auto. apply Z.eqb_refl.
  Qed.

  Lemma NoDup_app' : forall {T} (a b : list T), NoDup a -> NoDup b -> (forall x, In x a -> ~ In x b) -> NoDup (a ++ b).
  Proof.
    intros T a b Ha; induction Ha as [|x a Hx Ha IH]; intros Hb D; simpl; auto.
    constructor.
    - rewrite in_app_iff. intros [|]; auto. apply (D x); simpl; auto.
    - apply IH; auto. intros y Hy. apply D; simpl; auto.
  Qed.

  Lemma prod_nodup : forall a b, NoDup (map fst a) -> NoDup (map fst b) -> NoDup (map fst (prod_items a b)).
  Proof.
    intros a b Ha Hb. unfold prod_items. induction a as [|[k v] a IH]; simpl; [constructor|].
    simpl in Ha. inversion Ha as [|? ? Hk Ha']; subst. rewrite map_app. apply NoDup_app'; auto.
    - rewrite map_map. simpl. apply NoDup_filter_fst; auto.
    - intros x Hx Hx'. rewrite map_map in Hx. simpl in Hx. apply in_map_iff in Hx.
      destruct Hx as ([kb vb] & <- & Hf). apply filter_In in Hf. destruct Hf as [_ E]. simpl in E.
      apply Z.eqb_eq in E. subst. apply Hk.
      apply in_map_iff in Hx'. destruct Hx' as ([k' v'] & E & Hin). simpl in E. subst.
      fold (prod_items a b) in Hin. apply prod_in in Hin. destruct Hin as (va & _ & Hva & _).
      apply in_map_iff. exists (k, va). auto.
  Qed.

  Lemma mult_rows_items : forall a b, NoDup (map fst a) -> NoDup (map fst b) -> mult_rows a b = prod_items a b.
  Proof. intros a b Ha Hb. unfold mult_rows. apply dict_of_nodup; [apply Z.eqb_eq|]. apply prod_nodup; auto. Qed.

  Lemma mult_rows_stores : forall (a b : dict Z A) (ra rb : list A), length ra = length rb ->
    Forall finite ra -> Forall finite rb -> stores a ra -> stores b rb ->
    stores (mult_rows a b) (zip_with mul ra rb).
  Proof.
    intros a b ra rb L Fa Fb (NDa & Ka & Va) (NDb & Kb & Vb).
    rewrite mult_rows_items by auto. split; [|split].
    - apply prod_nodup; auto.
    - intros k Hk. apply in_map_iff in Hk. destruct Hk as ([k' v] & <- & Hin).
      apply prod_in in Hin. destruct Hin as (va & vb & Ha & Hb & _). simpl.
      rewrite zip_with_length. pose proof (Ka k' (in_map fst _ _ Ha)). lia.
    - intros j v Hj. rewrite zip_with_nth in Hj.
      destruct (nth_error ra j) as [x|] eqn:Ex; [|discriminate].
      destruct (nth_error rb j) as [y|] eqn:Ey; [|discriminate]. inversion Hj; subst v.
      rewrite Forall_forall in Fa, Fb.
      pose proof (Fa _ (nth_error_In _ _ Ex)) as Fx. pose proof (Fb _ (nth_error_In _ _ Ey)) as Fy.
      destruct (Va _ _ Ex) as [(w & Hw & ->)|[Na Zx]].
      + destruct (Vb _ _ Ey) as [(w' & Hw' & ->)|[Nb Zy]].
        * left. exists (mul x y). split; auto. apply prod_in. eauto.
        * right. split.
          -- intro Hin. apply in_map_iff in Hin. destruct Hin as ([k v] & E & Hin). simpl in E; subst.
             apply prod_in in Hin. destruct Hin as (va & vb & _ & Hb & _). apply Nb.
             apply in_map_iff. exists (Z.of_nat j, vb); auto.
          -- unfold is0. rewrite (a_mul_comm _ OK). apply (a_mul_zero _ OK); auto.
      + right. split.
        * intro Hin. apply in_map_iff in Hin. destruct Hin as ([k v] & E & Hin). simpl in E; subst.
          apply prod_in in Hin. destruct Hin as (va & vb & Ha & _). apply Na.
          apply in_map_iff. exists (Z.of_nat j, va); auto.
        * apply (a_mul_zero _ OK); auto.
  Qed.

  Lemma shape_sp : forall rows sz dt r, length rows = r -> 1 <= r ->
    shape (A:=A) (Sp rows sz dt) = Ok (S2 (Z.of_nat r) sz).
  Proof.
    intros rows sz dt r L H. unfold shape. cbn [items bind]. destruct rows as [|d rows]; [simpl in L; lia|].
    cbn [map]. do 2 f_equal. rewrite <- L. cbn [length]. rewrite map_length. auto.
  Qed.

  Lemma matmult_sparse : forall rX rY (M N : list (list A)) r c dt, rect M r c -> rect N r c -> 1 <= r ->
    Forall (Forall finite) M -> Forall (Forall finite) N ->
    Forall2 (stores (A:=A)) rX M -> Forall2 stores rY N ->
    exists rows, matmult_same_dim (Sp rX (Some (Z.of_nat c)) dt) (Sp rY (Some (Z.of_nat c)) dt)
      = Ok (Sp rows (Some (Z.of_nat c)) dt) /\ Forall2 stores rows (zip_with (zip_with mul) M N).
  Proof.
    intros rX rY M N r c dt HM HN H1 FM FN SX SY.
    pose proof (Forall2_len _ _ _ SX) as LX. pose proof (Forall2_len _ _ _ SY) as LY.
    unfold matmult_same_dim.
    rewrite (shape_sp rX _ _ r), (shape_sp rY _ _ r) by (destruct HM, HN; lia).
    cbn [bind shp_eqb]. rewrite !Z.eqb_refl. cbn [andb guard bind issparse Bool.eqb].
    assert (NE : exists d l, zip_with mult_rows rX rY = d :: l).
    { destruct HM as [LM _], HN as [LN _].
      destruct rX as [|a rX]; [simpl in *; lia|]. destruct rY as [|b rY]; [simpl in *; lia|]. simpl. eauto. }
    exists (zip_with mult_rows rX rY). split.
    - destruct NE as (d & l & E). rewrite E. reflexivity.
    - destruct HM as [LM RM], HN as [LN RN]. clear NE LX LY LM LN. 
      revert rY N FN RN SY. induction SX as [|a ra rX M Ha SX IH]; intros rY N FN RN SY; simpl; [constructor|].
      destruct SY as [|b rb rY N Hb SY]; simpl; constructor.
      + inversion FM; inversion FN; inversion RM; inversion RN; subst. apply mult_rows_stores; auto.
      + inversion FM; inversion FN; inversion RM; inversion RN; subst. apply IH; auto.
  Qed.

  Lemma matmult_shape : forall X Y sX sY, shape (A:=A) X = Ok sX -> shape Y = Ok sY ->
    (sX <> sY \/ issparse X <> issparse Y) -> matmult_same_dim X Y = Err ValueError.
  Proof.
    intros X Y sX sY EX EY H. unfold matmult_same_dim. rewrite EX, EY. cbn [bind].
    destruct (shp_eqb sX sY) eqn:E; cbn [guard bind]; auto.
    assert (sX = sY).
    { destruct sX as [n|n m], sY as [n'|n' m']; simpl in E; try discriminate.
      - apply Z.eqb_eq in E. congruence.
      - apply andb_true_iff in E. destruct E as [E1 E2]. apply Z.eqb_eq in E1. subst.
        destruct m, m'; try discriminate; auto. apply Z.eqb_eq in E2. congruence. }
    destruct H as [H|H]; [congruence|].
    destruct (issparse X), (issparse Y); simpl; auto; congruence.
  Qed.

  (** ** slice_column *)
  Lemma slice_dense : forall (M : list (list A)) r c j, rect M r c -> j < c ->
    exists col, slice_column (ll M) (Z.of_nat j) = Ok col /\ length col = r /\
      forall i, nth_error col i = cell M i j.
  Proof.
    intros M r c j HR Hj. unfold slice_column, ll. cbn [items bind].
    rewrite mapM_map. destruct (mapM_total (fun a => item_get (Ls a) (Z.of_nat j)) M) as [col E].
    { intros row Hrow. simpl. rewrite lget_nat. pose proof (rect_row _ _ _ _ HR Hrow).
      destruct (lnth_lt row j) as (x & Hx & _); [lia|eauto]. }
    exists col. split; auto. split; [rewrite (mapM_length _ _ _ E); apply HR|].
    intro i. unfold cell. destruct (nth_error M i) as [row|] eqn:Er.
    - destruct (mapM_nth _ _ _ _ _ E Er) as (y & Hy & E'). rewrite Hy. simpl in E'. rewrite lget_nat in E'.
      symmetry. apply lnth_ok; auto.
    - apply nth_error_None. rewrite (mapM_length _ _ _ E). apply nth_error_None; auto.
  Qed.

  Lemma Forall2_nth_r : forall {S T} (R : S -> T -> Prop) l m i y, Forall2 R l m -> nth_error m i = Some y ->
    exists x, nth_error l i = Some x /\ R x y.
  Proof.
    intros S T R l m i y H. revert i. induction H; intros [|i] E; simpl in *; try discriminate; eauto.
    inversion E; subst; eauto.
  Qed.

  Lemma slice_sparse : forall rows (M : list (list A)) r c j sz dt, rect M r c -> j < c ->
    Forall2 (stores (A:=A)) rows M ->
    exists col, slice_column (Sp rows sz dt) (Z.of_nat j) = Ok col /\ length col = r /\
      forall i v, cell M i j = Some v -> exists w, nth_error col i = Some w /\ same_cell v w.
  Proof.
    intros rows M r c j sz dt HR Hj HS. simpl. eexists; split; [reflexivity|]. split.
    - rewrite map_length, (Forall2_len _ _ _ HS). apply HR.
    - intros i v Hc. unfold cell in Hc. destruct (nth_error M i) as [row|] eqn:E; [|discriminate].
      destruct (Forall2_nth_r _ _ _ _ _ HS E) as (d & Hd & Hst).
      rewrite nth_error_map', Hd. simpl. eexists; split; [reflexivity|].
      apply stores_get with (r := row); auto.
  Qed.

  (** list of indices *)
  Lemma slice_cols_dense : forall (M : list (list A)) r c idx, rect M r c -> Forall (fun j => j < c) idx ->
    exists N, slice_columns (ll M) (map Z.of_nat idx) = Ok (ll N) /\ rect N r (length idx) /\
      forall i k j, nth_error idx k = Some j -> cell N i k = cell M i j.
  Proof.
    intros M r c idx HR HI. unfold slice_columns, ll at 1. cbn [items bind]. 
    rewrite Forall_forall in HI.
    rewrite mapM_map.
    destruct (mapM_total (fun a => mapM (item_get (Ls a)) (map Z.of_nat idx)) M) as [N E].
    { intros row Hrow. rewrite mapM_map. apply mapM_total. intros j Hj. simpl. rewrite lget_nat.
      pose proof (rect_row _ _ _ _ HR Hrow). destruct (lnth_lt row j) as (x & Hx & _); [specialize (HI _ Hj); lia|eauto]. }
    exists N. unfold ll at 1. rewrite E. cbn [bind]. split; auto. split; [split|].
    - rewrite (mapM_length _ _ _ E). apply HR.
    - apply Forall_forall. intros x Hx. destruct (mapM_in _ _ _ _ E Hx) as (y & Hy & E').
      rewrite (mapM_length _ _ _ E'). apply map_length.
    - intros i k j Hk. unfold cell. destruct (nth_error M i) as [row|] eqn:Er.
      + destruct (mapM_nth _ _ _ _ _ E Er) as (y & Hy & E'). rewrite Hy.
        assert (Hk' : nth_error (map Z.of_nat idx) k = Some (Z.of_nat j)) by (rewrite nth_error_map', Hk; auto).
        destruct (mapM_nth _ _ _ _ _ E' Hk') as (v & Hv & E''). rewrite Hv. simpl in E''. rewrite lget_nat in E''.
        symmetry. apply lnth_ok; auto.
      + assert (nth_error N i = None) as ->; auto. apply nth_error_None. rewrite (mapM_length _ _ _ E). apply nth_error_None; auto.
  Qed.

  (** what the sparse slice keeps: the selected columns, at their old positions *)
  Lemma slice_cols_sparse : forall rows (M : list (list A)) r c idx dt, rect M r c -> 1 <= r ->
    Forall2 (stores (A:=A)) rows M ->
    exists rows', slice_columns (Sp rows (Some (Z.of_nat c)) dt) (map Z.of_nat idx) = Ok (Sp rows' (Some (Z.of_nat c)) dt) /\
      length rows' = r /\
      forall i d d', nth_error rows i = Some d -> nth_error rows' i = Some d' ->
        forall j, dlookup Z.eqb (Z.of_nat j) d' = if existsb (Nat.eqb j) idx then dlookup Z.eqb (Z.of_nat j) d else None.
  Proof.
    intros rows M r c idx dt HR H1 HS. unfold slice_columns. cbn [items bind].
    pose proof (Forall2_len _ _ _ HS) as L. destruct HR as [HL _].
    set (f := (filter (fun kv : Z * A => mem Z.eqb (fst kv) (map Z.of_nat idx)) : dict Z A -> dict Z A)).
    exists (map f rows). split; [|split].
    - destruct rows; [simpl in L; lia|]. reflexivity.
    - rewrite map_length. transitivity (length M); auto.
    - intros i d d' Hd Hd' j. rewrite nth_error_map', Hd in Hd'. simpl in Hd'. inversion Hd'; subst. clear Hd' Hd.
      unfold f. induction d as [|[k v] d IH]; simpl.
      + destruct (existsb (Nat.eqb j) idx); auto.
      + destruct (mem Z.eqb k (map Z.of_nat idx)) eqn:Em; simpl.
        * destruct (Z.eqb_spec (Z.of_nat j) k) as [Ek|Ek].
          -- subst k. apply (mem_in Z.eqb Z.eqb_eq) in Em. apply in_map_iff in Em. destruct Em as (j' & Ej & Hin).
             assert (j' = j) by lia. subst. 
             replace (existsb (Nat.eqb j) idx) with true; auto. symmetry. apply existsb_exists. exists j. split; auto. apply Nat.eqb_refl.
          -- apply IH.
        * rewrite IH. destruct (Z.eqb_spec (Z.of_nat j) k) as [Ek|Ek]; auto.
          subst k. apply (mem_false Z.eqb Z.eqb_eq) in Em.
          destruct (existsb (Nat.eqb j) idx) eqn:Ex; auto. exfalso. apply Em.
          apply existsb_exists in Ex. destruct Ex as (j' & Hin & E). apply Nat.eqb_eq in E. subst. apply in_map; auto.
  Qed.

  (** ** softmax: dense and dict forms *)
  Lemma sfmax_dict_values : forall (d : dict Z A),
    rmap (fun r => (dkeys r, dvalues r)) (sfmax_dict d) = rmap (fun l => (dkeys d, l)) (sfmax (dvalues d)).
  Proof.
    intro d. unfold sfmax_dict, sfmax.
    assert (G : forall (f : A -> res A) (d : dict Z A), 
       match dmapM (fun _ v => f v) d, mapM f (dvalues d) with
       | Ok d', Ok l => dkeys d' = dkeys d /\ dvalues d' = l
       | Err e, Err e' => e = e'
       | _, _ => False end).
    { clear. intros f d. unfold dmapM, dvalues, dkeys. induction d as [|[k v] d IH]; simpl; auto.
      destruct (f v); simpl; auto.
      destruct (mapM (fun kv => w <- f (snd kv);; Ok (fst kv, w)) d); destruct (mapM f (map snd d)); simpl; auto; try contradiction.
      destruct IH as [E1 E2]. rewrite E1, E2. auto. }
    pose proof (G safe_exp d) as G1.
    destruct (dmapM (fun _ v => safe_exp v) d) as [es|]; destruct (mapM safe_exp (dvalues d)) as [l|]; cbn [bind]; try contradiction.
    - destruct G1 as [E1 E2]. pose proof (G (fun v => div v (psum (dvalues es))) es) as G2.
      destruct (dmapM (fun _ v => div v (psum (dvalues es))) es) as [d'|]; rewrite <- E2;
      destruct (mapM (fun v => div v (psum (dvalues es))) (dvalues es)) as [l'|]; cbn [rmap]; try contradiction.
      + destruct G2 as [E3 E4]. rewrite E3, E4, E1. auto.
      + subst; auto.
    - subst; auto.
  Qed.
End Gen.

(** ** safe_exp, safe_log, expit, softmax on doubles *)
Section Floats.
  Variable m : libm.
  Local Notation F := (F64 m).

  Lemma safe_exp_total : forall x : F, exists y, safe_exp x = Ok y.
  Proof.
    intro x. unfold safe_exp. simpl. unfold f_exp.
    destruct x as [s|[]| |s mx ex H]; eauto; destruct (m_exp m _); eauto.
  Qed.

  Lemma safe_exp_ge0 : exp_nonneg m -> forall x y : F, isnan x = false -> safe_exp x = Ok y -> leb zero y = true.
  Proof.
    intros HE x y N. unfold safe_exp. simpl. unfold f_exp.
    assert (G : forall z, is_finite x = true -> m_exp m x = Some z -> f_leb (f_ofZE 0 0) z = true).
    { intros z Fx E. destruct (HE _ _ Fx E) as [Fz Vz]. rewrite f_leb_x, b2x_zero, b2x_fin by auto. simpl. apply Rleb_le; auto. }
    destruct x as [s|[]| |s mx ex H]; try discriminate N;
      [specialize (G) | | |]; try (intro E; injection E as <-; reflexivity);
      destruct (m_exp m _) eqn:Em; intro E; injection E as <-; try reflexivity; apply G; auto.
  Qed.
End Floats.

Lemma expit_unit : forall m, exp_nonneg m -> forall x : F64 m, isnan x = false ->
  exists p, expit x = Ok p /\ leb zero p = true /\ leb p one = true.
Proof.
  intros m HE x N. unfold expit.
  assert (N' : isnan (opp x : F64 m) = false).
  { simpl in *. rewrite f_nan_x in *. rewrite b2x_opp. destruct (b2x x); auto. }
  destruct (safe_exp_total m (opp x)) as [e Ee]. rewrite Ee. cbn [bind].
  pose proof (safe_exp_ge0 m HE _ _ N' Ee) as L. f64.
  rewrite f_leb_x, b2x_zero in L.
  pose proof (f_div_x (f_ofZE 1 0) (f_add (f_ofZE 1 0) e)) as D. 
  rewrite f_add_x, b2x_one in D.
  assert (G : x_leb (XFin 1) (xround (x_add (XFin 1) (b2x e))) = true).
  { rewrite <- b2x_one. rewrite <- (xround_b2x (f_ofZE 1 0)) at 1. apply xround_mono. rewrite b2x_one.
    destruct (b2x e); simpl in *; try discriminate; auto. apply Rleb_le in L. apply Rleb_le. lra. }
  set (d := xround (x_add (XFin 1) (b2x e))) in *.
  assert (Q : exists q, x_div (XFin 1) d = Ok q /\ x_leb (XFin 0) q = true /\ x_leb q (XFin 1) = true).
  { destruct d as [| | |r]; try discriminate G.
    - exists (XFin 0). simpl. rewrite !Rleb_le. repeat split; auto; lra.
    - simpl in G. apply Rleb_le in G. unfold x_div. replace (Reqb r 0) with false by (symmetry; apply Reqb_neq; lra).
      eexists; split; [reflexivity|]. simpl. rewrite !Rleb_le. unfold Rdiv. 
      assert (0 < / r)%R by (apply Rinv_0_lt_compat; lra). split; [lra|].
      apply Rmult_le_reg_r with r; [lra|]. rewrite Rmult_1_l, Rinv_l by lra. lra. }
  destruct Q as (q & Eq & Q0 & Q1). rewrite Eq in D. simpl in D.
  destruct (f_div (f_ofZE 1 0) (f_add (f_ofZE 1 0) e)) as [p|]; simpl in D; [|discriminate].
  injection D as D. exists p. split; auto. rewrite !f_leb_x, D, b2x_zero, b2x_one. split.
  - change (XFin 0) with (b2x (B754_zero false)). rewrite <- (xround_b2x (B754_zero false)). apply xround_mono. auto.
  - rewrite <- b2x_one. rewrite <- (xround_b2x (f_ofZE 1 0)). apply xround_mono. rewrite b2x_one. auto.
Qed.

Lemma sfmax_float : forall m, exp_nonneg m -> forall (l es : list (F64 m)),
  Forall2 (fun x e => is_finite x = true /\ m_exp m x = Some e) l es ->
  finite (psum es) -> eqb (psum es) zero = false ->
  exists p, sfmax l = Ok p /\ length p = length l /\ Forall (fun q => leb zero q = true /\ leb q one = true) p.
Proof.
  intros m HE l es H Fin NZ. unfold sfmax.
  assert (E : mapM safe_exp l = Ok es).
  { apply mapM_Forall2. eapply Forall2_imp; [|exact H]. simpl. intros x e [Fx Ee]. unfold safe_exp. simpl. unfold f_exp.
    destruct x; try discriminate; rewrite Ee; auto. }
  rewrite E. cbn [bind]. 
  assert (P : Forall (fun x => leb zero x = true) es).
  { clear -H HE. induction H as [|x e l es [Fx Ee] H IH]; constructor; auto.
    destruct (HE _ _ Fx Ee) as [Fe Ve]. unfold zero, ofZ. simpl. rewrite f_leb_x, b2x_zero, b2x_fin by auto. simpl. apply Rleb_le; auto. }
  destruct (normalised_unit (F64_unit m) es P Fin NZ) as (q & Eq & L & U).
  exists q. repeat split; auto. rewrite L, (mapM_length _ _ _ E). auto.
Qed.

Lemma safe_exp_fin : forall m (x : F64 m), is_finite x = true ->
  safe_exp x = Ok (match m_exp m x with Some y => y | None => @pinf (F64 m) end).
Proof.
  intros m x F. unfold safe_exp. simpl. unfold f_exp.
  destruct x as [s|[]| |s mx ex H]; try discriminate; destruct (m_exp m _); auto.
Qed.

Lemma sfmax_over : forall m (x : F64 m), is_finite x = true -> exp_overflows m x -> sfmax [x] = Ok [nanv].
Proof.
  intros m x F H. unfold sfmax. cbn [mapM bind]. rewrite safe_exp_fin by auto. unfold exp_overflows in H. rewrite H.
  reflexivity.
Qed.
Lemma sfmax_under : forall m (x : F64 m), is_finite x = true -> exp_underflows m x -> sfmax [x; x] = Err ZeroDivisionError.
Proof.
  intros m x F [s H]. unfold sfmax. cbn [mapM bind]. rewrite safe_exp_fin by auto. rewrite H.
  destruct s; reflexivity.
Qed.

(** 1 - p stays in [0,1] on doubles. *)
Lemma one_minus_unit : forall m (p : F64 m), leb zero p = true -> leb p one = true ->
  leb (zero : F64 m) (sub one p) = true /\ leb (sub one p) (one : F64 m) = true.
Proof.
  intros m p H0 H1. f64. rewrite f_leb_x, b2x_zero in H0. rewrite f_leb_x, b2x_one in H1.
  rewrite !f_leb_x, f_sub_x, b2x_zero, b2x_one.
  destruct (b2x p) as [| | |r] eqn:E; try discriminate. simpl in H0, H1. apply Rleb_le in H0, H1. split.
  - change (XFin 0) with (b2x (B754_zero false)). rewrite <- (xround_b2x (B754_zero false)). apply xround_mono.
    simpl. apply Rleb_le. lra.
  - rewrite <- b2x_one at 2. rewrite <- (xround_b2x (f_ofZE 1 0)) at 1. apply xround_mono. rewrite b2x_one.
    simpl. apply Rleb_le. lra.
Qed.
