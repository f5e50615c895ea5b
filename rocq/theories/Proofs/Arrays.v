(** Proofs about sparse lists and the matrix helpers of base.py. *)
From Coq Require Import Sorted.
From Verif Require Import Model.Py Model.Arith Model.Utils Model.Base Spec.Matrix Proofs.Lib Proofs.Laws.

Lemma rect_cell : forall {T} (M : list (list T)) r c i j,
  rect M r c -> i < r -> j < c -> exists v, cell M i j = Some v.
Proof.
  intros T M r c i j [Hl Hr] Hi Hj. unfold cell.
  destruct (nth_error M i) as [row|] eqn:E.
  - rewrite Forall_forall in Hr. specialize (Hr _ (nth_error_In _ _ E)).
    destruct (nth_error row j) eqn:E2; eauto. apply nth_error_None in E2; lia.
  - apply nth_error_None in E; lia.
Qed.
Lemma rect_row : forall {T} (M : list (list T)) r c row, rect M r c -> In row M -> length row = c.
Proof. intros T M r c row [_ H] Hin. rewrite Forall_forall in H; auto. Qed.

Lemma ll_inj : forall {T} (M N : list (list T)), ll M = ll N -> M = N.
Proof.
  intros T M N H. unfold ll in H. injection H as H. revert N H.
  induction M as [|p M IH]; intros [|q N] H; simpl in H; try discriminate; auto.
  injection H as -> H. f_equal; auto.
Qed.

Section Gen.
  Context {A : arith} (OK : arith_ok A).

  Definition sprow_from (k : nat) (r : list A) : dict Z A :=
    filter (fun iv => negb (eqb (snd iv) zero)) (combine (map Z.of_nat (seq k (length r))) r).
  Definition sprow (r : list A) : dict Z A := sprow_from 0 r.

  Lemma combine_fst : forall {K V} (a : list K) (b : list V), length a = length b -> map fst (combine a b) = a.
  Proof. intros K V a; induction a as [|x a IH]; intros [|y b] H; simpl in *; try discriminate; auto. f_equal; auto. Qed.

  Lemma NoDup_filter_fst : forall {K V} (f : K * V -> bool) (l : list (K * V)),
    NoDup (map fst l) -> NoDup (map fst (filter f l)).
  Proof.
    intros K V f l; induction l as [|[k v] l IH]; simpl; intro H; auto.
    inversion H; subst. destruct (f (k, v)); simpl; auto. constructor; auto.
    intro Hin. apply H2. apply in_map_iff in Hin. destruct Hin as ([k' v'] & E & Hin). simpl in E; subst.
    apply filter_In in Hin. apply in_map_iff. exists (k, v'); tauto.
  Qed.

  Lemma SS_filter_fst : forall {V} (f : Z * V -> bool) (l : list (Z * V)),
    StronglySorted Z.lt (map fst l) -> StronglySorted Z.lt (map fst (filter f l)).
  Proof.
    intros V f l; induction l as [|[k v] l IH]; simpl; intro H; auto.
    inversion H; subst. destruct (f (k, v)); simpl; auto. constructor; auto.
    rewrite Forall_forall in *. intros x Hx. apply H3. apply in_map_iff in Hx.
    destruct Hx as (p & <- & Hp). apply filter_In in Hp. apply in_map; tauto.
  Qed.

  Lemma SS_seq : forall n k, StronglySorted Z.lt (map Z.of_nat (seq k n)).
  Proof.
    induction n as [|n IH]; intro k; simpl; constructor; auto.
    apply Forall_forall. intros x Hx. apply in_map_iff in Hx. destruct Hx as (i & <- & Hi).
    apply in_seq in Hi. lia.
  Qed.

  Lemma sprow_from_fst : forall (r : list A) k, map fst (combine (map Z.of_nat (seq k (length r))) r) = map Z.of_nat (seq k (length r)).
  Proof. intros; apply combine_fst. rewrite map_length, seq_length; auto. Qed.

  Lemma NoDup_zseq : forall k n, NoDup (map Z.of_nat (seq k n)).
  Proof. intros; apply FinFun.Injective_map_NoDup; [intros i j H; lia | apply seq_NoDup]. Qed.

  Lemma sparse_row_ok : forall c r, length r = c -> sparse_row (A:=A) (Z.of_nat c) (Ls r) = Ok (sprow r).
  Proof.
    intros c r <-. unfold sparse_row. rewrite zrange_nat.
    assert (E : mapM (fun i => v <- item_get (Ls r) i ;; Ok (i, v)) (map Z.of_nat (seq 0 (length r)))
                = Ok (combine (map Z.of_nat (seq 0 (length r))) r)).
    { simpl. rewrite mapM_map. 
      rewrite (mapM_ext _ (fun i => x <- lnth r i ;; Ok (Z.of_nat i, x))) by (intros; rewrite lget_nat; auto).
      assert (G : forall k (r' : list A), mapM (fun i => x <- lnth r' (i - k) ;; Ok (Z.of_nat i, x)) (seq k (length r')) =
                      Ok (combine (map Z.of_nat (seq k (length r'))) r')).
      { clear. intros k r'; revert k. induction r' as [|x r' IH]; intro k; simpl; auto.
        rewrite Nat.sub_diag. simpl. 
        rewrite (mapM_ext _ (fun i => x <- lnth r' (i - S k) ;; Ok (Z.of_nat i, x))).
        - rewrite IH; reflexivity.
        - intros i Hi. apply in_seq in Hi. unfold lnth. replace (i - k) with (S (i - S k)) by lia. reflexivity. }
      rewrite <- (G 0 r). apply mapM_ext. intros. rewrite Nat.sub_0_r; auto. }
    rewrite E; simpl. f_equal. apply dict_of_nodup; [apply Z.eqb_eq|].
    unfold sprow, sprow_from. apply NoDup_filter_fst. rewrite sprow_from_fst. apply NoDup_zseq.
  Qed.

  Lemma tosparse_ok : forall M r c, rect M r c -> 1 <= r -> 1 <= c ->
    tosparse (A:=A) (ll M) = Ok (Sp (map sprow M) (Some (Z.of_nat c)) DFloat).
  Proof.
    intros M r c HR Hr Hc. destruct M as [|x0 M]; [destruct HR as [HR _]; simpl in HR; lia|].
    pose proof (rect_row _ _ _ x0 HR (or_introl eq_refl)) as L0.
    unfold tosparse, ll. cbn [items bind map check_array shape1 shape]. cbn. 
    destruct x0 as [|v0 x0]; [simpl in L0; lia|].
    replace (lget (v0 :: x0) 0) with (Ok v0) by (symmetry; apply (lget_nat (v0 :: x0) 0)).
    cbn [bind].
    change (sparse_row (Z.pos (Pos.of_succ_nat (length x0))) (Ls (v0 :: x0))) with (sparse_row (Z.of_nat (length (v0 :: x0))) (Ls (v0 :: x0))).
    rewrite sparse_row_ok by auto. cbn [bind].
    rewrite mapM_map.
    rewrite (mapM_pure _ sprow).
    - cbn [bind]. do 3 f_equal. f_equal; exact L0.
    - intros x Hx. replace (Z.pos (Pos.of_succ_nat (length x0))) with (Z.of_nat c) by (simpl in L0; lia).
      apply sparse_row_ok. rewrite ?L0. apply (rect_row _ _ _ x HR). right; auto.
  Qed.

  Lemma sprow_from_in : forall r k j v,
    In (j, v) (sprow_from k r) <->
    exists i, j = Z.of_nat (k + i) /\ nth_error r i = Some v /\ eqb v zero = false.
  Proof.
    intros r k j v. unfold sprow_from. rewrite filter_In. simpl. rewrite negb_true_iff. split.
    - intros [H E]. apply In_nth_error in H. destruct H as [i Hi]. exists i.
      rewrite nth_error_combine, nth_error_map', nth_error_seq in Hi.
      destruct (i <? length r) eqn:El; simpl in Hi; [|discriminate].
      destruct (nth_error r i) eqn:En; [|discriminate]. inversion Hi; subst; auto.
    - intros (i & -> & Hn & E). split; auto.
      apply nth_error_In with (n := i). rewrite nth_error_combine, nth_error_map', nth_error_seq, Hn.
      assert (i < length r) by (apply nth_error_Some; congruence).
      destruct (Nat.ltb_spec i (length r)); [reflexivity|lia].
  Qed.

  Lemma sprow_stores : forall r, stores_sorted (sprow r) r.
  Proof.
    intro r. split; [split; [|split]|].
    - unfold sprow, sprow_from. apply NoDup_filter_fst. rewrite sprow_from_fst. apply NoDup_zseq.
    - intros k Hk. apply in_map_iff in Hk. destruct Hk as ([k' v] & <- & Hin).
      apply sprow_from_in in Hin. destruct Hin as (i & -> & Hn & _). simpl.
      assert (i < length r) by (apply nth_error_Some; congruence). lia.
    - intros j v Hj. unfold is0. destruct (eqb v zero) eqn:E.
      + right. split; auto. intro Hin. apply in_map_iff in Hin. destruct Hin as ([k' w] & E1 & Hin).
        apply sprow_from_in in Hin. destruct Hin as (i & -> & Hn & Ew). simpl in E1.
        assert (i = j) by lia. subst. congruence.
      + left. exists v. split; auto. apply sprow_from_in. exists j. auto.
    - unfold sprow, sprow_from. apply SS_filter_fst. rewrite sprow_from_fst. apply SS_seq.
  Qed.

  (** Reading a stored row. *)
  Lemma stores_lookup : forall d r j v, stores (A:=A) d r -> nth_error r j = Some v ->
    dlookup Z.eqb (Z.of_nat j) d = Some v \/ (dlookup Z.eqb (Z.of_nat j) d = None /\ is0 v).
  Proof.
    intros d r j v (ND & HK & HV) Hj. destruct (HV _ _ Hj) as [(w & Hin & ->) | [Hn H0]].
    - left. apply dlookup_nodup; auto. apply Z.eqb_eq.
    - right. split; auto. apply dlookup_none; auto. apply Z.eqb_eq.
  Qed.
  Lemma stores_get : forall d r j v, stores (A:=A) d r -> nth_error r j = Some v ->
    same_cell v (dget_default Z.eqb d (Z.of_nat j) zero).
  Proof.
    intros d r j v H Hj. unfold dget_default, same_cell.
    destruct (stores_lookup _ _ _ _ H Hj) as [-> | [-> H0]]; auto.
  Qed.
  Lemma stores_out : forall d r j, stores (A:=A) d r -> (j < 0 \/ Z.of_nat (length r) <= j)%Z ->
    dlookup Z.eqb j d = None.
  Proof.
    intros d r j (ND & HK & HV) Hj. apply dlookup_none; [apply Z.eqb_eq|].
    intro Hin. specialize (HK _ Hin). lia.
  Qed.

  Lemma sprow_get : forall r j v, nth_error r j = Some v ->
    dget_default Z.eqb (sprow r) (Z.of_nat j) zero = if eqb v zero then zero else v.
  Proof.
    intros r j v Hj. unfold dget_default.
    destruct (sprow_stores r) as [S _].
    destruct (stores_lookup _ _ _ _ S Hj) as [E | [E H0]]; rewrite E.
    - destruct (eqb v zero) eqn:Ev; auto.
      apply dlookup_in in E; [|apply Z.eqb_eq]. apply sprow_from_in in E.
      destruct E as (i & Ei & Hn & Ev'). congruence.
    - unfold is0 in H0. rewrite H0. auto.
  Qed.

  Definition cleanz (v : A) : A := if eqb v zero then zero else v.

  Lemma todense_sprow : forall M r c, rect M r c ->
    todense (A:=A) (Sp (map sprow M) (Some (Z.of_nat c)) DFloat) = Ok (map (map cleanz) M).
  Proof.
    intros M r c HR. simpl. rewrite mapM_map, mapM_Ok. f_equal. apply map_ext_in.
    intros row Hrow. pose proof (rect_row _ _ _ _ HR Hrow) as L.
    rewrite zrange_nat, map_map. apply list_eq_nth. intro j.
    rewrite !nth_error_map', nth_error_seq. unfold dzero.
    destruct (nth_error row j) as [v|] eqn:E.
    - assert (j < length row) by (apply nth_error_Some; congruence).
      destruct (Nat.ltb_spec j c); [|lia]. simpl. f_equal. rewrite sprow_get with (v := v); auto.
    - apply nth_error_None in E. destruct (Nat.ltb_spec j c); [lia|]. reflexivity.
  Qed.

  Lemma same_cleanz : forall v, same_cell v (cleanz v).
  Proof. intro v. unfold same_cell, cleanz, is0. destruct (eqb v zero) eqn:E; auto. Qed.

  (** todense of any sparse list whose rows store the rows of [M]. *)
  Lemma todense_stores : forall rows M r c dt, rect M r c -> Forall2 (stores (A:=A)) rows M ->
    exists D, todense (Sp rows (Some (Z.of_nat c)) dt) = Ok D /\ rect D r c /\
      forall i j v, cell M i j = Some v -> exists w, cell D i j = Some w /\ same_cell v w.
  Proof.
    intros rows M r c dt HR HS. simpl. rewrite mapM_Ok. eexists; split; [reflexivity|]. split; [split|].
    - rewrite map_length, (Forall2_len _ _ _ HS). apply HR.
    - apply Forall_forall. intros x Hx. apply in_map_iff in Hx. destruct Hx as (d & <- & _).
      rewrite map_length, zrange_length. lia.
    - intros i j v Hc. unfold cell in *. destruct (nth_error M i) as [row|] eqn:Em; [|discriminate].
      assert (Hd : exists d, nth_error rows i = Some d /\ stores d row).
      { clear -HS Em. revert i Em. induction HS; intros [|i] Em; simpl in *; try discriminate.
        - inversion Em; subst; eauto.
        - eauto. }
      destruct Hd as (d & Hd & Hst).
      rewrite nth_error_map', Hd. simpl.
      pose proof (rect_row _ _ _ _ HR (nth_error_In _ _ Em)) as L.
      assert (j < length row) by (apply nth_error_Some; congruence).
      rewrite zrange_nat, map_map, nth_error_map', nth_error_seq.
      destruct (Nat.ltb_spec j c); [|lia]. simpl. eexists; split; [reflexivity|].
      unfold dzero. eapply stores_get; eauto.
  Qed.

  (** * dot *)
  Lemma psum_zip : forall (x y : list A), psum (zip_with mul x y) = dotp x y.
  Proof.
    intros x y. unfold psum, dotp. rewrite zip_with_combine.
    generalize (combine x y) (zero : A). intro l; induction l as [|p l IH]; intro acc; simpl; auto.
  Qed.

  Lemma dot_dense : forall r B, dot (A:=A) (Ls r) B = Ok (map (dotp r) B).
  Proof. intros r B. unfold dot. rewrite mapM_Ok. f_equal. apply map_ext. intro; apply psum_zip. Qed.

  (** Sum over a sorted storage = sum over the dense row, zeros skipped. *)
  Lemma dot_stored_acc : forall (r : list A) k (d : dict Z A) (b : list A) (acc : A),
    length b = length r -> Forall finite b -> clean acc ->
    StronglySorted Z.lt (map fst d) ->
    (forall j, In j (map fst d) -> (Z.of_nat k <= j < Z.of_nat (k + length r))%Z) ->
    (forall j v, nth_error r j = Some v ->
       (exists w, In (Z.of_nat (k + j), w) d /\ w = v) \/
       (~ In (Z.of_nat (k + j)) (map fst d) /\ is0 v)) ->
    forall bb, (forall j, nth_error bb (k + j) = nth_error b j) ->
    exists ts, mapM (fun kv => x <- lget bb (fst kv) ;; Ok (mul (snd kv) x)) d = Ok ts /\
      fold_left add ts acc = fold_left (fun acc p => add acc (mul (fst p) (snd p))) (combine r b) acc.
  Proof.
    induction r as [|v r IH]; intros k d b acc Hb Hf Hc HS HK HV bb Hbb.
    - destruct d as [|[j w] d].
      + exists []; auto.
      + specialize (HK j (or_introl eq_refl)). simpl in HK. lia.
    - destruct b as [|x b]; [discriminate|]. simpl in Hb. injection Hb as Hb.
      inversion Hf as [|? ? Fx Fb]; subst.
      assert (Hbb' : forall j, nth_error bb (S k + j) = nth_error b j).
      { intro j. specialize (Hbb (S j)). simpl in Hbb. rewrite <- Hbb. f_equal. lia. }
      assert (Hx : nth_error bb k = Some x) by (specialize (Hbb 0); rewrite Nat.add_0_r in Hbb; auto).
      destruct (HV 0 v eq_refl) as [(w & Hin & ->) | [Hnin H0]]; rewrite Nat.add_0_r in *.
      + (* stored: it must be the first entry *)
        destruct d as [|[j w] d]; [destruct Hin|].
        assert (E : j = Z.of_nat k /\ w = v).
        { destruct Hin as [E | Hin]; [inversion E; auto|].
          simpl in HS. inversion HS as [|? ? _ HF]; subst. rewrite Forall_forall in HF.
          specialize (HF (Z.of_nat k) (in_map fst _ _ Hin)).
          specialize (HK j (or_introl eq_refl)). lia. }
        destruct E as [-> ->].
        inversion HS as [|? ? HS' HF]; subst. rewrite Forall_forall in HF.
        destruct (IH (S k) d b (add acc (mul v x))) with (bb := bb) as (ts & E1 & E2); auto.
        * apply (a_clean_add _ OK); auto.
        * intros j Hj. specialize (HF j Hj). specialize (HK j (or_intror Hj)). simpl in HK. lia.
        * intros j w Hj. destruct (HV (S j) w Hj) as [(w' & Hin' & ->) | [Hn H0]].
          -- left. exists w. split; auto. replace (S k + j) with (k + S j) by lia.
             destruct Hin' as [E|]; auto. inversion E. lia.
          -- right. split; auto. replace (S k + j) with (k + S j) by lia. intro; apply Hn; right; auto.
        * exists (mul v x :: ts). split; auto. simpl. rewrite lget_nat. unfold lnth. rewrite Hx. simpl. rewrite E1. auto.
      + destruct (IH (S k) d b acc) with (bb := bb) as (ts & E1 & E2); auto.
        * intros j Hj. specialize (HK j Hj). simpl in HK.
          assert (j <> Z.of_nat k) by (intros ->; auto). lia.
        * intros j w Hj. destruct (HV (S j) w Hj) as [(w' & Hin' & ->) | [Hn H1]].
          -- left. exists w. split; auto. replace (S k + j) with (k + S j) by lia. auto.
          -- right. split; auto. replace (S k + j) with (k + S j) by lia. auto.
        * exists ts. split; auto. simpl. rewrite (a_absorb _ OK acc (mul v x)); auto.
          apply (a_mul_zero _ OK); auto.
  Qed.

  Lemma dot_stored : forall d r B, stores_sorted d r ->
    Forall (fun b => length b = length r /\ Forall finite b) B ->
    dot (A:=A) (Di d) B = dot (Ls r) B.
  Proof.
    intros d r B [(ND & HK & HV) HS] HB. rewrite dot_dense. unfold dot.
    apply mapM_pure. intros b Hb. rewrite Forall_forall in HB. destruct (HB _ Hb) as [Lb Fb].
    destruct (dot_stored_acc r 0 d b zero) with (bb := b) as (ts & E1 & E2); auto.
    - apply (a_clean0 _ OK).
    - rewrite E1; simpl. unfold psum, dotp. rewrite E2. auto.
  Qed.

  (** * transpose *)
  Lemma zipstar_nth : forall {T} (M : list (list T)) r c, rect M r c -> 1 <= r ->
    rect (zipstar M) c r /\ forall i j, i < r -> j < c -> cell (zipstar M) j i = cell M i j.
  Proof.
    intros T M; induction M as [|row M IH]; intros r c [Hl Hr] H1; [simpl in Hl; lia|].
    inversion Hr as [|? ? L0 Hr']; subst. destruct M as [|row' M].
    - cbn [zipstar length]. split; [split|].
      + rewrite map_length; auto.
      + apply Forall_forall. intros x Hx. apply in_map_iff in Hx. destruct Hx as (y & <- & _). auto.
      + intros i j Hi Hj. simpl in Hi. assert (i = 0) by lia. subst. unfold cell. rewrite nth_error_map'. simpl.
        destruct (nth_error row j); auto.
    - destruct (IH (length (row' :: M)) (length row)) as [IR IC]; [split; auto| simpl; lia|].
      change (zipstar (row :: row' :: M)) with (zip_with cons row (zipstar (row' :: M))).
      destruct IR as [IL IF]. split; [split|].
      + rewrite zip_with_length, IL. lia.
      + apply Forall_forall. intros x Hx. apply In_nth_error in Hx. destruct Hx as [n Hn].
        rewrite zip_with_nth in Hn. destruct (nth_error row n); [|discriminate].
        destruct (nth_error (zipstar (row' :: M)) n) eqn:E; [|discriminate]. inversion Hn; subst.
        simpl. f_equal. rewrite Forall_forall in IF. apply IF. eapply nth_error_In; eauto.
      + intros i j Hi Hj. unfold cell. rewrite zip_with_nth.
        destruct (nth_error row j) as [v|] eqn:Ev; [|apply nth_error_None in Ev; lia].
        destruct (nth_error (zipstar (row' :: M)) j) as [col|] eqn:Ec; [|apply nth_error_None in Ec; lia].
        destruct i as [|i]; [simpl; auto|].
        simpl length in Hi. specialize (IC i j ltac:(simpl; lia) Hj). unfold cell in IC. rewrite Ec in IC.
        simpl nth_error. rewrite IC. auto.
  Qed.

  Lemma rect_ext : forall {T} (M N : list (list T)) r c, rect M r c -> rect N r c ->
    (forall i j, i < r -> j < c -> cell M i j = cell N i j) -> M = N.
  Proof.
    intros T M N r c [L1 F1] [L2 F2] H. apply list_eq_nth. intro i.
    destruct (nth_error M i) as [a|] eqn:Ea; destruct (nth_error N i) as [b|] eqn:Eb;
      try (apply nth_error_None in Ea); try (apply nth_error_None in Eb); auto.
    - f_equal. apply list_eq_nth. intro j.
      rewrite Forall_forall in F1, F2.
      pose proof (F1 _ (nth_error_In _ _ Ea)). pose proof (F2 _ (nth_error_In _ _ Eb)).
      assert (i < r) by (rewrite <- L1; apply nth_error_Some; congruence).
      destruct (Nat.lt_ge_cases j c) as [Hj|Hj].
      + specialize (H i j H2 Hj). unfold cell in H. rewrite Ea, Eb in H. auto.
      + transitivity (@None T); [|symmetry]; apply nth_error_None; lia.
    - assert (i < length M) by (apply nth_error_Some; congruence). lia.
    - assert (i < length N) by (apply nth_error_Some; congruence). lia.
  Qed.

  Lemma transpose_ll : forall M, transpose (A:=A) (ll M) = Ok (zipstar M).
  Proof.
    intro M. unfold transpose, ll. simpl. rewrite mapM_map. simpl.
    rewrite (mapM_Ok (fun x => x)). simpl. rewrite map_id. auto.
  Qed.

  Lemma zipstar_invol : forall {T} (M : list (list T)) r c, rect M r c -> 1 <= r -> 1 <= c ->
    zipstar (zipstar M) = M.
  Proof.
    intros T M r c HR H1 Hc. destruct (zipstar_nth M r c HR H1) as [R1 C1].
    destruct (zipstar_nth (zipstar M) c r R1 Hc) as [R2 C2].
    apply (rect_ext _ _ r c); auto. intros i j Hi Hj. rewrite C2, C1; auto.
  Qed.
End Gen.
Lemma cell_lt : forall {T} (M : list (list T)) r c i j x, rect M r c -> cell M i j = Some x -> i < r /\ j < c.
Proof.
  intros T M r c i j x [LM RM] H. unfold cell in H. destruct (nth_error M i) as [row|] eqn:E; [|discriminate].
  rewrite Forall_forall in RM. rewrite <- LM, <- (RM row) by (eapply nth_error_In; eauto).
  split; apply nth_error_Some; congruence.
Qed.
