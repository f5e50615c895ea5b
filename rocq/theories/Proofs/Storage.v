(** Sparse and dense input through whole estimators. *)
From Coq Require Import String Lia Sorted.
From Flocq Require Import Core BinarySingleNaN.
From Verif Require Import Model.Py Model.Arith Model.F64 Model.Utils Model.Base Model.Hash Model.DictVec
  Model.Text Model.Tree Model.Ensemble Model.Xgb Model.Linear Model.NaiveBayes
  Model.Dummy Model.Preprocessing Model.Encoders Model.Impute Model.Pipeline Model.Est.
From Verif Require Import Spec.Matrix Spec.Scaling Spec.Trees Spec.Linear Spec.Pipeline Spec.Storage.
From Verif Require Import Proofs.Lib Proofs.Laws Proofs.Unit Proofs.Arrays Proofs.Scaling Proofs.Pipeline.
From Verif Require Import Spec.Accepts Proofs.Accepts Proofs.Accepts5 Proofs.CRLibm.
From Verif Require Import Props.Trees Props.Linear Props.Scaling Props.Pipeline.

(** Keys of a union row are increasing when those of its parts are. *)
Section Sorted.
  Context {A : arith}.

  Lemma sorted_app : forall l k : list Z, StronglySorted Z.lt l -> StronglySorted Z.lt k ->
    (forall x y, In x l -> In y k -> (x < y)%Z) -> StronglySorted Z.lt (l ++ k).
  Proof.
    induction l as [|x l IH]; intros k Sl Sk H; cbn [app]; auto.
    inversion Sl as [|? ? Sl' Fl]; subst. constructor.
    - apply IH; auto. intros a b Ha Hb. apply H; [right; auto|auto].
    - apply Forall_app. split; auto. apply Forall_forall. intros y Hy. apply H; [left; auto|auto].
  Qed.
  Lemma sorted_shift : forall s (l : list Z), StronglySorted Z.lt l -> StronglySorted Z.lt (map (fun k => (k + s)%Z) l).
  Proof.
    intros s l H. induction H as [|x l H IH F]; cbn [map]; constructor; auto. apply Forall_map. eapply Forall_impl; [|exact F]. cbn. intros; lia.
  Qed.

  Lemma sorted_blocks : forall (ds : list (dict Z A)) cs t,
    Forall2 (fun d c => StronglySorted Z.lt (map fst d) /\ forall k, In k (map fst d) -> (0 <= k < Z.of_nat c)%Z) ds cs ->
    let ks := map fst (concat (map (fun p => shift (fst p) (snd p)) (combine (t :: accumu_from t (map Z.of_nat cs)) ds))) in
    StronglySorted Z.lt ks /\ forall k, In k ks -> (t <= k)%Z.
  Proof.
    intros ds cs t H. revert t. induction H as [|d c ds cs [Sd Rd] H IH]; intro t; cbn zeta.
    - cbn. split; [constructor|intros k []].
    - cbn [combine map concat accumu_from fst snd]. specialize (IH (t + Z.of_nat c)%Z). cbn zeta in IH. destruct IH as [I1 I2].
      rewrite map_app, shift_keys. split.
      + apply sorted_app; [apply sorted_shift; auto|exact I1|]. intros x y Hx Hy. apply in_map_iff in Hx. destruct Hx as (k & <- & Hk). apply Rd in Hk. apply I2 in Hy. lia.
      + intros k Hk. apply in_app_iff in Hk. destruct Hk as [Hk|Hk].
        * apply in_map_iff in Hk. destruct Hk as (k' & <- & Hk). apply Rd in Hk. lia.
        * apply I2 in Hk. lia.
  Qed.

  Definition sorted_rep (n : nat) (Y : arr A) (M : list (list A)) (c : nat) : Prop := sparse_of n c Y M.

  Lemma sorted_reps : forall n Ys Ms cs, reps (sorted_rep n) Ys Ms cs -> reps (fun Y M c => represents Y M n c /\ wide Y c) Ys Ms cs.
  Proof.
    intros n Ys Ms cs H. induction H as [|Y M c Ys Ms cs (R & Hn & rows & dt & -> & F) H IH]; constructor; auto. split.
    - split; auto. right. exists rows, dt. split; auto. eapply Forall2_imp; [|exact F]. intros d row [S _]. exact S.
    - left. reflexivity.
  Qed.

  (** Inverting [sparse_union]: the keys of its rows. *)
  Lemma union_sorted : forall n Ys Ms cs rows sz dt, reps (sorted_rep n) Ys Ms cs -> Ys <> [] ->
    sparse_union Ys (Ok n) = Ok (Sp rows sz dt) -> Forall (fun d => StronglySorted Z.lt (map fst d)) rows.
  Proof.
    intros n Ys Ms cs rows sz dt H Hne E. unfold sparse_union in E.
    assert (E1 : mapM (fun X : arr A => if issparse X then Ok X else tosparse X) Ys = Ok Ys).
    { clear -H. induction H as [|Y M c Ys Ms cs (R & Hn & rows & dt & -> & F) H IH]; [reflexivity|]. cbn [mapM issparse bind]. rewrite IH. reflexivity. }
    assert (E2 : mapM size_of Ys = Ok (map (fun c => Some (Z.of_nat c)) cs)).
    { clear -H. induction H as [|Y M c Ys Ms cs (R & Hn & rows & dt & -> & F) H IH]; [reflexivity|]. cbn [mapM size_of bind map]. rewrite IH. reflexivity. }
    assert (E3 : mapM known_size (map (fun c => Some (Z.of_nat c)) cs) = Ok (map Z.of_nat cs)).
    { rewrite mapM_map. cbn [known_size]. apply mapM_Ok. }
    rewrite E1 in E. cbn [bind] in E. rewrite E2 in E. cbn [bind] in E. rewrite E3 in E. cbn [bind] in E.
    destruct (mapM (union_row Ys (0%Z :: accumu (map Z.of_nat cs))) (range n)) as [rows'|] eqn:ER; [|discriminate]. cbn [bind] in E.
    assert (rows = rows') as -> by (unfold sparse_list in E; destruct rows'; [discriminate|injection E; auto]).
    apply mapM_Forall2 in ER. apply Forall_forall. intros d Hd. apply In_nth_error in Hd. destruct Hd as (i & Hd).
    destruct (proj1 (Forall2_nth_error _ _ _) ER) as [LE NE].
    destruct (nth_error (range n) i) as [j|] eqn:Ej; [|exfalso; apply nth_error_None in Ej; apply nth_error_lt in Hd; exact (Nat.lt_irrefl _ (Nat.lt_le_trans _ _ _ Hd (Nat.le_trans _ _ _ (Nat.eq_le_incl _ _ (eq_sym LE)) Ej)))].
    assert (Hj : j < n). { assert (J : In j (range n)) by (eapply nth_error_In; eauto). apply in_seq in J. lia. }
    specialize (NE i j d Ej Hd). clear - NE H Hne Hj.
    assert (Hds : exists ds, Forall2 (fun Y d => row_at Y j = Ok (Di d)) Ys ds /\
       Forall2 (fun d c => StronglySorted Z.lt (map fst d) /\ forall k, In k (map fst d) -> (0 <= k < Z.of_nat c)%Z) ds cs).
    { clear NE Hne. induction H as [|Y M c Ys Ms cs (R & Hn & rows & dt & -> & F) H IH]; [exists []; split; constructor|].
      destruct IH as (ds & D1 & D2). destruct R as [LM RM].
      destruct (nth_error M j) as [r|] eqn:Er; [|apply nth_error_None in Er; lia].
      destruct (nth_error rows j) as [e|] eqn:Ee; [|apply nth_error_None in Ee; rewrite (Forall2_len _ _ _ F) in Ee; lia].
      exists (e :: ds). split; constructor; auto.
      - unfold row_at. cbn [items bind]. apply lnth_ok. rewrite nth_error_map', Ee. reflexivity.
      - destruct (proj2 (proj1 (Forall2_nth_error _ _ _) F) j e r Ee Er) as [(_ & K & _) SS]. split; auto.
        assert (length r = c) as <-; [|exact K]. rewrite Forall_forall in RM. apply RM. eapply nth_error_In; eauto. }
    destruct Hds as (ds & D1 & D2).
    set (blocks := map (fun p => shift (fst p) (snd p)) (combine (0%Z :: accumu (map Z.of_nat cs)) ds)).
    destruct (sorted_blocks ds cs 0%Z D2) as [SB _]. change (accumu_from 0 (map Z.of_nat cs)) with (accumu (map Z.of_nat cs)) in SB. fold blocks in SB.
    assert (Lds : length ds = length Ys) by (symmetry; eapply Forall2_len; eauto).
    assert (Lcs : length cs = length Ys) by (rewrite <- (Forall2_len _ _ _ D2); auto).
    assert (Lb : length blocks = length Ys).
    { unfold blocks, accumu. rewrite map_length, combine_length. cbn [length]. rewrite accumu_length, map_length. lia. }
    unfold union_row in NE.
    assert (E : mapM (fun i0 => X <- lnth Ys i0 ;; x <- row_at X j ;; d <- item_items x ;;
                s <- lnth (0%Z :: accumu (map Z.of_nat cs)) i0 ;;
                Ok (dict_of Z.eqb (map (fun kv => ((fst kv + s)%Z, snd kv)) d)))
                   (range (length Ys)) = Ok blocks).
    { apply mapM_Forall2. apply Forall2_nth_error. split; [unfold range; rewrite seq_length; auto|].
      intros k k' b Hk Hb. unfold range in Hk. rewrite nth_error_seq in Hk.
      destruct (k <? length Ys) eqn:Elt; [|discriminate]. apply Nat.ltb_lt in Elt. injection Hk as <-.
      unfold blocks in Hb. rewrite nth_error_map' in Hb. destruct (nth_error (combine _ ds) k) as [[s e]|] eqn:Ec; [|discriminate]. cbn in Hb. injection Hb as <-.
      destruct (nth_error Ys k) as [Y|] eqn:EY; [|apply nth_error_None in EY; lia].
      assert (Es : nth_error (0%Z :: accumu (map Z.of_nat cs)) k = Some s /\ nth_error ds k = Some e).
      { clear -Ec. revert ds k Ec. generalize (0%Z :: accumu (map Z.of_nat cs)). induction l as [|a l IH]; intros [|b ds] [|k] Ec; cbn in *; try discriminate; auto. injection Ec as -> ->. auto. }
      destruct Es as [Es Ed].
      rewrite (proj2 (lnth_ok _ _ _) EY). cbn [bind]. rewrite (proj2 (proj1 (Forall2_nth_error _ _ _) D1) k Y e EY Ed). cbn [bind item_items].
      rewrite (proj2 (lnth_ok _ _ _) Es). cbn [bind]. f_equal. apply dict_of_nodup; [apply Z.eqb_eq|]. change (NoDup (map fst (shift s e))). rewrite shift_keys.
      apply FinFun.Injective_map_NoDup; [intros x y; lia|].
      destruct (nth_error cs k) as [c|] eqn:Ecs; [|apply nth_error_None in Ecs; lia].
      destruct (proj2 (proj1 (Forall2_nth_error _ _ _) D2) k e c Ed Ecs) as [SS _]. clear -SS. induction SS as [|x l SS IH F]; constructor; auto. intro Hx. rewrite Forall_forall in F. apply F in Hx. lia. }
    rewrite E in NE. cbn [bind] in NE. rewrite reduce_app in NE by (destruct blocks; [destruct Ys; [congruence|discriminate]|discriminate]). cbn [bind] in NE.
    injection NE as <-. rewrite dict_of_nodup; auto; [apply Z.eqb_eq|].
    clear -SB. induction SB as [|x l SS IH F]; constructor; auto. intro Hx. rewrite Forall_forall in F. apply F in Hx. lia.
  Qed.
End Sorted.

Scheme scales_mut := Minimality for scales Sort Prop
  with unions_mut := Minimality for unions Sort Prop.

Section Doubles.
  Variable (m : libm).
  Context {L V : Type} (veq : V -> V -> bool) (vnum : F64 m -> V) (U : textlib).
  Notation ob := (obj_of (A:=F64 m) (L:=L) veq vnum U).
  Notation F := (F64 m).

  Lemma div_nan : forall x s y : F, div x s = Ok y -> isnan y = false -> isnan x = false.
  Proof.
    intros x s y E N. destruct x as [?|?| |? ? ? ?]; auto. exfalso. cbn in E. unfold f_div in E. destruct s as [?|?| |? ? ? ?]; try discriminate; injection E as <-; discriminate N.
  Qed.

  (** The dense normaliser always succeeds (it uses no exp). *)
  Lemma norm_dense : forall nm (M : list (list F)) n w, 1 <= n -> rect M n w -> In nm norm_names -> (nm = lit "max" -> 1 <= w) ->
    exists D : list (list F), normalize_pure (ll M) nm 1 = Ok (ll D) /\ rect D n w.
  Proof. exact (normalize_dense (F64_total crlibm cr_exp_nonneg)). Qed.

  Lemma sorted_keys : forall (rows rows' : list (dict Z F)) M D, Forall2 stores_sorted rows M ->
    Forall2 stores rows' D -> map (map fst) rows' = map (map fst) rows -> Forall2 stores_sorted rows' D.
  Proof.
    intros rows rows' M D H H'. revert rows M H. induction H' as [|d' row' rows' D S' H' IH]; intros rows M H E; [constructor|].
    destruct rows as [|d rows]; [discriminate|]. cbn [map] in E. injection E as E1 E2. inversion H as [|? row ? M' [S SS] H2]; subst. constructor.
    - split; auto. exact (eq_ind_r (StronglySorted Z.lt) SS E1).
    - eapply IH; eauto.
  Qed.
  Lemma sorted_stores : forall (rows : list (dict Z F)) M, Forall2 stores_sorted rows M -> Forall2 stores rows M.
  Proof. intros rows M H. eapply Forall2_imp; [|exact H]. intros d row [S _]. exact S. Qed.

  Lemma mapped_nan : forall (R : nat -> F -> F -> Prop) r c (M D : list (list F)), (forall j x v, R j x v -> isnan v = false -> isnan x = false) ->
    mapped R r c M D -> nan_free D -> nan_free M.
  Proof.
    intros R r c M D HR [_ HM] N. unfold nan_free in *. apply Forall_forall. intros row Hrow. apply Forall_forall. intros x Hx.
    apply In_nth_error in Hrow. destruct Hrow as (i & Hi). apply In_nth_error in Hx. destruct Hx as (j & Hj).
    destruct (HM i j x) as (v & Hv & HRv). { unfold cell. rewrite Hi. exact Hj. }
    apply (HR j x v HRv). unfold cell in Hv. destruct (nth_error D i) as [d|] eqn:Ed; [|discriminate].
    rewrite Forall_forall in N. specialize (N d (nth_error_In _ _ Ed)). rewrite Forall_forall in N. apply N. exact (nth_error_In _ _ Hv).
  Qed.

  Definition agrees (e : est F L V) (c c' : nat) : Prop :=
    exists f, o_transform (ob e) = Some f /\ (forall X, t_after (f X) = X) /\
      forall r S M, sparse_of r c S M ->
      exists D, t_value (f (DNum (ll M))) = Ok (DNum (ll D)) /\ rect D r c' /\
        (nan_free D -> nan_free M /\ exists T, t_value (f (DNum S)) = Ok (DNum T) /\ sparse_of r c' T D).

  Lemma nonempty : forall (M : list (list F)) r c, rect M r c -> 1 <= r -> M <> [].
  Proof. intros M r c [HL _] H ->. cbn in HL. lia. Qed.

  Lemma agrees_norm : forall nm c, nm = lit "l1" \/ nm = lit "l2" -> agrees (ENormalizer nm) c c.
  Proof.
    intros nm c HN. eexists. split; [reflexivity|]. split; [reflexivity|]. intros r S M (R & Hr & rows & dt & -> & ST).
    unfold t_value. cbn [t_out t_after bind as_num]. unfold normalizer_transform.
    rewrite check_ll by (eapply nonempty; eauto). cbn [bind].
    destruct (norm_dense nm M r c Hr R) as (D & ED & RD).
    { destruct HN as [->| ->]; [left|right; left]; reflexivity. }
    { destruct HN as [->| ->]; discriminate. }
    exists D. rewrite ED. cbn [bind]. split; [reflexivity|]. split; [exact RD|]. intro ND.
    assert (NM : nan_free M).
    { apply (normalize_rows nm M) in ED; [|destruct HN as [->| ->]; [left|right; left]; reflexivity|eapply nonempty; eauto].
      destruct ED as (ns & D' & _ & Ln & EQ & LD & H). apply ll_inj in EQ. subst D'.
      unfold nan_free in *. apply Forall_forall. intros row Hrow. apply In_nth_error in Hrow. destruct Hrow as (i & Hi).
      assert (Li : i < length M) by (eapply nth_error_lt; eauto).
      destruct (nth_error ns i) as [n|] eqn:En; [|apply nth_error_None in En; lia].
      destruct (nth_error D i) as [d|] eqn:Ed; [|apply nth_error_None in Ed; lia].
      specialize (H i row n d Hi En Ed). rewrite Forall_forall in ND. specialize (ND d (nth_error_In _ _ Ed)). unfold divided_by in H. clear - H ND.
      induction H as [|x y row d E H IH]; constructor; inversion ND; subst; auto. eapply div_nan; eauto. }
    split; [exact NM|]. destruct (C30_sparse m nm rows (Some (Z.of_nat c)) dt M r c HN R Hr NM ST) as (D' & rows' & E1 & E2 & S' & K').
    rewrite check_sp. cbn [bind]. rewrite E2. cbn [bind]. eexists. split; [reflexivity|].
    assert (D' = D) as ->. { rewrite ED in E1. apply ll_inj. injection E1 as E1. exact (eq_sym (f_equal _ E1)). }
    split; [exact RD|]. split; [exact Hr|]. exists rows', dt. split; [reflexivity|]. eapply sorted_keys; eauto.
  Qed.

  Lemma has_sparse : forall (M : list (list F)) r c, rect M r c -> 1 <= r -> exists S, sparse_of r c S M.
  Proof.
    intros M r c R Hr. exists (Sp (map sprow M) (Some (Z.of_nat c)) DFloat). split; auto. split; auto. exists (map sprow M), DFloat. split; auto.
    apply Forall2_map_l. clear. induction M; constructor; auto. apply sprow_stores.
  Qed.

  Lemma agrees_std : forall s sc c, ss_mean_on s = false -> ss_std_on s = true -> ss_scale s = Some sc -> length sc = c ->
    divisors sc -> agrees (EStd s) c c.
  Proof.
    intros s sc c H1 H2 H3 H4 HD. eexists. split; [reflexivity|]. split; [reflexivity|]. intros r S M (R & Hr & rows & dt & -> & ST).
    unfold t_value, std_method. cbn [t_out t_after as_num].
    destruct (C28_sparse m s sc rows (Some (Z.of_nat c)) dt M r c R Hr (sorted_stores _ _ ST) H1 H2 H3 H4 HD) as (D & rows' & E1 & E2 & S' & K').
    rewrite E1, E2. cbn [bind]. exists D.
    assert (Q1 : std_same s (ll M) = false). { unfold std_same, ll. destruct M; [reflexivity|]. cbn [map]. rewrite H1, H2. reflexivity. }
    assert (Q2 : std_same s (Sp rows (Some (Z.of_nat c)) dt) = false). { unfold std_same. rewrite H1, H3. reflexivity. }
    rewrite Q1, Q2. split; [reflexivity|].
    pose proof (proj1 (C28_dense m s [] sc M r c R Hr ltac:(rewrite H1; discriminate) ltac:(auto) (ll D)) E1) as (D' & EQ & HM).
    apply ll_inj in EQ. subst D'. split; [exact (proj1 HM)|]. intro ND. split.
    - eapply mapped_nan; [|exact HM|exact ND]. rewrite H1, H2. intros j x v (y & -> & s0 & _ & Ev) N. eapply div_nan; eauto.
    - eexists. split; [reflexivity|]. split; [exact (proj1 HM)|]. split; [exact Hr|]. exists rows', dt. split; [reflexivity|]. eapply sorted_keys; eauto.
  Qed.
  Lemma agrees_std_none : forall s c, ss_mean_on s = false -> ss_std_on s = false -> ss_scale s = None -> agrees (EStd s) c c.
  Proof.
    intros s c H1 H2 H3. eexists. split; [reflexivity|]. split; [reflexivity|]. intros r S M (R & Hr & rows & dt & -> & ST).
    unfold t_value, std_method. cbn [t_out t_after as_num]. unfold std_transform. rewrite check_ll by (eapply nonempty; eauto). rewrite check_sp.
    pose proof (nonempty M r c R Hr) as NE. cbn [bind]. rewrite H1, H2, H3. cbn [bind guard negb]. exists M.
    assert (Q1 : std_same s (ll M) = true). { unfold std_same, ll. destruct M; [congruence|]. cbn [map]. rewrite H1, H2. reflexivity. }
    assert (Q2 : std_same s (Sp rows (Some (Z.of_nat c)) dt) = true). { unfold std_same. rewrite H1, H3. reflexivity. }
    rewrite Q2. split; [unfold ll in Q1 |- *; cbn [bind]; rewrite Q1; reflexivity|]. split; [exact R|]. intro ND. split; auto. eexists. split; [reflexivity|]. split; auto. split; auto. exists rows, dt. auto.
  Qed.
  Lemma agrees_maxabs : forall sc c, length sc = c -> divisors sc -> agrees (EMaxAbs (Some sc)) c c.
  Proof.
    intros sc c HL HD. eexists. split; [reflexivity|]. split; [reflexivity|]. intros r S M (R & Hr & rows & dt & -> & ST).
    unfold t_value. cbn [t_out t_after as_num].
    assert (ED : exists D, maxabs_transform (Some sc) (ll M) = Ok (ll D)).
    { destruct (mapped_exists (divided sc) M r c R) as [D HM].
      - intros i j x Hx. destruct (cell_lt M r c i j x R Hx) as [_ Hj]. destruct (lnth_lt sc j) as (s & _ & E); [lia|]. unfold divisors in HD. rewrite Forall_forall in HD.
        destruct (HD s (nth_error_In _ _ E)) as [Z0 _]. destruct (u_div_ok _ (F64_unit m) x s) as [v Ev].
        + unfold is0 in Z0. destruct (eqb s zero) eqn:Q; auto. exfalso. apply Z0; reflexivity.
        + exists v, s. auto.
      - exists D. apply (C29_maxabs m sc M r c R Hr HL). eauto. }
    destruct ED as (D & ED).
    destruct (C29_maxabs_sparse m sc rows (Some (Z.of_nat c)) dt M D r c R Hr HL (sorted_stores _ _ ST)) as (rows' & E2 & S' & K'); auto.
    { eapply Forall_impl; [|exact HD]. cbn. tauto. }
    rewrite ED, E2. cbn [bind]. exists D. split; [reflexivity|].
    pose proof (proj1 (C29_maxabs m sc M r c R Hr HL (ll D)) ED) as (D' & EQ & HM).
    apply ll_inj in EQ. subst D'. split; [exact (proj1 HM)|]. intro ND. split.
    - eapply mapped_nan; [|exact HM|exact ND]. intros j x v (s0 & _ & Ev) N. eapply div_nan; eauto.
    - eexists. split; [reflexivity|]. split; [exact (proj1 HM)|]. split; [exact Hr|]. exists rows', dt. split; [reflexivity|]. eapply sorted_keys; eauto.
  Qed.

  (** Pipelines. *)
  Lemma run_after_some : forall (steps : list (obj F L V)) Y X, t_after (run_steps steps (Some Y) X) = X.
  Proof.
    induction steps as [|o rest IH]; intros Y X; [reflexivity|]. cbn [run_steps]. destruct (t_out (call_transform o Y)) as [[y|]|e]; auto.
  Qed.

  Lemma pipe_run : forall (steps : list (pystr * obj F L V)) f, o_transform (pipeline steps) = Some f -> f = run_steps (map snd steps) None.
  Proof.
    intros steps f E. unfold pipeline in E. cbn [o_transform] in E. destruct (last_step steps) as [o|]; [|discriminate]. destruct (o_transform o); [|discriminate]. injection E as <-. reflexivity.
  Qed.
  Lemma last_cons : forall (x y : pystr * obj F L V) l, last_step (x :: y :: l) = last_step (y :: l).
  Proof. intros x y l. unfold last_step. cbn [length]. replace (S (S (length l)) - 1) with (S (length l)) by lia. replace (S (length l) - 1) with (length l) by lia. reflexivity. Qed.

  Lemma pipe_cons : forall (x y : pystr * obj F L V) l g, o_transform (pipeline (y :: l)) = Some g ->
    o_transform (pipeline (x :: y :: l)) = Some (run_steps (map snd (x :: y :: l)) None).
  Proof.
    intros x y l g E. unfold pipeline in *. cbn [o_transform] in *. rewrite last_cons. destruct (last_step (y :: l)) as [o|]; [|discriminate]. destruct (o_transform o); [|discriminate]. reflexivity.
  Qed.

  Lemma agrees_last : forall nm e c c', agrees e c c' -> agrees (EPipeline [(nm, e)]) c c'.
  Proof.
    intros nm e c c' (f & E & Q & H). cbn [obj_of map fst snd].
    exists (run_steps [ob e] None). split.
    { change (match o_transform (ob e) with None => None | Some _ => Some (run_steps [ob e] None) end = Some (run_steps [ob e] None)). rewrite E. reflexivity. }
    assert (RV : forall X, t_value (run_steps [ob e] None X) = t_value (f X) /\ t_after (run_steps [ob e] None X) = X).
    { intro X. cbn [run_steps]. unfold call_transform. rewrite E. pose proof (Q X) as QX. unfold t_value. destruct (t_out (f X)) as [y|]; cbn [t_out t_after bind]; rewrite ?QX; auto. }
    split; [intro X; apply RV|]. intros r S M HS. destruct (H r S M HS) as (D & E1 & E2 & E3). exists D. rewrite (proj1 (RV _)). split; auto. split; auto. intro ND. destruct (E3 ND) as (N1 & T & E4 & E5). split; auto. exists T. rewrite (proj1 (RV _)). auto.
  Qed.

  Lemma agrees_step : forall nm e rest c c1 c2, agrees e c c1 -> agrees (EPipeline rest) c1 c2 -> agrees (EPipeline ((nm, e) :: rest)) c c2.
  Proof.
    intros nm e rest c c1 c2 (f & E & Q & H) (g & EG & QG & HG). cbn [obj_of map fst snd] in *.
    pose proof (pipe_run _ _ EG) as ->.
    exists (run_steps (map snd ((nm, ob e) :: map (fun ne => (fst ne, ob (snd ne))) rest)) None). split.
    { destruct rest as [|[n2 e2] rest]; [discriminate|]. exact (pipe_cons _ _ _ _ EG). }
    cbn [map snd] in *. set (R := map snd (map (fun ne => (fst ne, ob (snd ne))) rest)) in *.
    assert (RV : forall X Y, t_value (f X) = Ok Y -> t_value (run_steps (ob e :: R) None X) = t_value (run_steps R None Y)).
    { intros X Y EY. destruct (t_value (run_steps R None Y)) as [Y'|e'] eqn:EV.
      - apply (proj2 (run_ok (ob e :: R) None X Y')). apply (run_ok R None Y Y') in EV. eapply applied_cons; eauto.
      - apply (proj2 (run_err (ob e :: R) None X e')). apply (run_err R None Y e') in EV. eapply stops_later; eauto. }
    split.
    - intro X. cbn [run_steps]. unfold call_transform. rewrite E, (Q X). destruct (t_out (f X)) as [[Y|]|e']; auto. apply run_after_some.
    - intros r S M HS. destruct (H r S M HS) as (D1 & E1 & R1 & N1).
      destruct (has_sparse D1 r c1 R1 (proj1 (proj2 HS))) as (S0 & HS0).
      destruct (HG r S0 D1 HS0) as (D2 & E2 & R2 & N2). exists D2. rewrite (RV _ _ E1). split; auto. split; auto. intro ND.
      destruct (N2 ND) as (ND1 & _). destruct (N1 ND1) as (NM & T1 & ET & HT1). split; auto.
      destruct (HG r T1 D1 HT1) as (D2' & E2' & _ & N2'). assert (D2' = D2) as ->. { rewrite E2 in E2'. apply ll_inj. injection E2' as E2'. exact (eq_sym (f_equal _ E2')). }
      destruct (N2' ND) as (_ & T2 & ET2 & HT2). exists T2. rewrite (RV _ _ ET). auto.
  Qed.

  (** Feature unions. *)
  Lemma transform_all_quiet : forall (ms : list (obj F L V * option F)) X,
    Forall (fun m => forall X, t_after (call_transform (fst m) X) = X) ms -> snd (transform_all ms X) = X.
  Proof.
    induction ms as [|[o w] ms IH]; intros X H; [reflexivity|]. inversion H as [|? ? H1 H2]; subst. cbn [fst] in H1. cbn [transform_all].
    assert (T : snd (transform_one o w X) = X) by exact (H1 X). destruct (transform_one o w X) as [[y|e] X']; cbn [snd] in *; subst X'; [|reflexivity].
    specialize (IH X H2). destruct (transform_all ms X) as [[ys|e] X'']; exact IH.
  Qed.
  Lemma check_array_same : forall {T} (X X' : arr T), check_array X HAllow = Ok X' -> X' = X \/ X' = ExnObj.
  Proof. intros T X X' E. unfold check_array in E. destruct X as [[|x l]|rows sz dt| |]; cbn in E; try discriminate; try (injection E as <-); auto. Qed.
  Lemma check_data_same : forall X X' : data F V, check_data X = Ok X' -> X' = X \/ X' = DNum ExnObj.
  Proof.
    intros X X' E. unfold check_data in E. destruct X as [X|[s|[|d l]]|[d|[|d l]]|X]; try discriminate; try (injection E as <-; auto; fail).
    - destruct (check_array X HAllow) as [Y|] eqn:EC; [|discriminate]. cbn [bind] in E. injection E as <-. apply check_array_same in EC. destruct EC as [-> | ->]; auto.
    - destruct (check_array X HAllow) as [Y|] eqn:EC; [|discriminate]. cbn [bind] in E. injection E as <-. apply check_array_same in EC. destruct EC as [-> | ->]; auto. destruct X; auto.
  Qed.
  Lemma union_quiet : forall ms X, Forall (fun m => forall X, t_after (call_transform (fst m) X) = X) ms ->
    t_after (union_transform (A:=F) (L:=L) (V:=V) ms X) = X.
  Proof.
    intros ms X H. unfold union_transform. destruct (check_data X) as [X1|] eqn:EC; [|reflexivity].
    pose proof (transform_all_quiet ms X1 H) as Q. destruct (transform_all ms X1) as [r X2]. cbn [snd] in Q. subst X2. cbn [t_after].
    apply check_data_same in EC. destruct EC as [-> | ->]; [|reflexivity]. destruct X as [[]| | |]; reflexivity.
  Qed.

  Lemma beside_fun : forall n (Ms : list (list (list F))) M M', beside n Ms M -> beside n Ms M' -> M = M'.
  Proof.
    intros n Ms M M' [L1 H1] [L2 H2]. apply list_eq_nth. intro i. destruct (nth_error M i) as [row|] eqn:E.
    - destruct (nth_error M' i) as [row'|] eqn:E'; [|apply nth_error_None in E'; apply nth_error_lt in E; lia].
      destruct (H1 i row E) as (rs & F1 & ->), (H2 i row' E') as (rs' & F2 & ->). f_equal. f_equal.
      clear -F1 F2. revert rs' F2. induction F1 as [|A r As rs H F1 IH]; intros rs' F2; inversion F2 as [|? r' ? rs2 H' F2']; subst; auto. f_equal; [congruence|auto].
    - apply nth_error_None in E. symmetry. apply nth_error_None. lia.
  Qed.
  Lemma beside_rect : forall n (Ms : list (list (list F))) cs M, beside n Ms M -> Forall2 (fun M c => rect M n c) Ms cs -> rect M n (list_sum cs).
  Proof.
    intros n Ms cs M [HL HM] HR. split; auto. apply Forall_forall. intros row Hin. apply In_nth_error in Hin. destruct Hin as (i & Hi).
    destruct (HM i row Hi) as (rs & Hrs & ->). clear -HR Hrs. revert rs Hrs.
    induction HR as [|M0 c Ms cs [_ HR0] HR IH]; intros rs Hrs; inversion Hrs as [|? r ? rs' Er Hrs']; subst; auto.
    cbn [concat list_sum]. rewrite app_length, (IH _ Hrs'). unfold list_sum. cbn. f_equal. rewrite Forall_forall in HR0. apply HR0. eapply nth_error_In; eauto.
  Qed.
  Lemma beside_nan : forall n (Ms : list (list (list F))) M, Forall (fun M => length M = n) Ms -> beside n Ms M -> nan_free M -> Forall nan_free Ms.
  Proof.
    intros n Ms M HL [LM HM] N. apply Forall_forall. intros M0 H0. unfold nan_free. apply Forall_forall. intros row Hrow.
    apply In_nth_error in Hrow. destruct Hrow as (i & Hi). rewrite Forall_forall in HL. pose proof (HL M0 H0) as L0. assert (i < n) by (rewrite <- L0; eapply nth_error_lt; eauto).
    destruct (nth_error M i) as [big|] eqn:Eb; [|apply nth_error_None in Eb; lia]. destruct (HM i big Eb) as (rs & F2 & ->).
    unfold nan_free in N. rewrite Forall_forall in N. specialize (N _ (nth_error_In _ _ Eb)).
    assert (In row rs). { clear - F2 H0 Hi. induction F2 as [|A r As rs H F2 IH]; [inversion H0|]. destruct H0 as [->|H0]; [left; congruence|right; auto]. }
    rewrite Forall_forall in N |- *. intros x Hx. apply N. apply in_concat. eauto.
  Qed.

  Lemma agrees_union : forall ms ws c cs, ms <> [] ->
    Forall2 (fun ne c' => weight_of ws (fst ne) = None /\ agrees (snd ne) c c') ms cs -> agrees (EUnion ms ws) c (list_sum cs).
  Proof.
    intros ms ws c cs Hne HF. exists (union_transform (weighted (map (fun ne : pystr * est F L V => (fst ne, ob (snd ne))) ms) ws)). split; [reflexivity|].
    set (objs := map (fun ne : pystr * est F L V => (fst ne, ob (snd ne))) ms).
    split.
    { intro X. apply union_quiet. unfold weighted, objs. clear Hne. induction HF as [|[nm e] c' ms cs [_ (f & E & Q & _)] HF IH]; [constructor|].
      cbn [map fst snd]. constructor; [|exact IH]. cbn [fst snd] in *. intro Y. unfold call_transform. rewrite E. apply Q. }
    intros r S M HS. pose proof HS as (R & Hr & rows & dt & ES & ST).
    assert (G : exists Ds, Forall2 (fun m D => gives (snd m) (DNum (ll M)) (ll D)) objs Ds /\ Forall2 (fun D c => rect D r c) Ds cs /\
       (Forall nan_free Ds -> nan_free M /\ exists Ts, Forall2 (member_gives (DNum S)) (weighted objs ws) Ts /\ reps (sorted_rep r) Ts Ds cs)).
    { unfold weighted, objs. destruct ms as [|m0 ms0]; [congruence|]. clear Hne.
      assert (G : forall ms cs, Forall2 (fun ne c' => weight_of ws (fst ne) = None /\ agrees (snd ne) c c') ms cs ->
        exists Ds, Forall2 (fun m D => gives (snd m) (DNum (ll M)) (ll D)) (map (fun ne : pystr * est F L V => (fst ne, ob (snd ne))) ms) Ds /\ Forall2 (fun D c => rect D r c) Ds cs /\
       (Forall nan_free Ds -> (ms <> [] -> nan_free M) /\ exists Ts, Forall2 (member_gives (DNum S)) (map (fun no : pystr * obj F L V => (snd no, weight_of ws (fst no))) (map (fun ne => (fst ne, ob (snd ne))) ms)) Ts /\ reps (sorted_rep r) Ts Ds cs)).
      { clear -HS. intros ms cs HF. induction HF as [|[nm e] c' ms cs [W (f & E & Q & H)] HF IH].
        - exists []. split; [constructor|]. split; [constructor|]. intros _. split; [congruence|]. exists []. split; constructor.
        - destruct IH as (Ds & I1 & I2 & I3). cbn [fst snd] in *. destruct (H r S M HS) as (D & E1 & R1 & N1). exists (D :: Ds). cbn [map fst snd]. split; [|split].
          + constructor; auto. exists f. cbn [snd]. auto.
          + constructor; auto.
          + intro N. inversion N as [|? ? N2 N3]; subst. destruct (N1 N2) as (NM & T & ET & HT). destruct (I3 N3) as (_ & Ts & T1 & T2). split; auto. exists (T :: Ts). split; constructor; auto.
            unfold member_gives. cbn [fst snd]. rewrite W. exists f. auto. }
      destruct (G _ _ HF) as (Ds & G1 & G2 & G3). exists Ds. split; auto. split; auto. intro N. destruct (G3 N) as (N1 & Ts & T1 & T2). split; [apply N1; discriminate|]. exists Ts. auto. }
    destruct G as (Ds & G1 & G2 & G3).
    assert (B : batch (V:=V) (DNum (ll M)) r). { split; auto. unfold ll. cbn. rewrite map_length. apply R. }
    assert (LD : Forall (fun D => length D = r) Ds). { clear -G2. induction G2 as [|D c Ds cs [HL _] G2 IH]; constructor; auto. }
    destruct (C49_dense objs ws (DNum (ll M)) r Ds B) as (D & HG & HB).
    { unfold objs. destruct ms; [congruence|discriminate]. }
    { assert (W : Forall (fun m => weight_of ws (fst m) = None) objs).
      { unfold objs. clear -HF. induction HF as [|[nm e] c' ms cs [W _] HF IH]; [constructor|]. cbn [map fst snd]. constructor; auto. }
      clearbody objs. clear -G1 LD W. induction G1 as [|m0 D os Ds H G1 IH]; [constructor|]. inversion LD as [|? ? L1 L2]; inversion W as [|? ? W1 W2]; subst. constructor; auto.
      exists D. split; auto. split; auto. rewrite W1. reflexivity. }
    destruct HG as (f & Ef & EV & _). injection Ef as <-. exists D. split; [exact EV|]. split; [eapply beside_rect; eauto|]. intro ND.
    destruct (G3 (beside_nan r Ds D LD HB ND)) as (NM & Ts & T1 & T2). split; [exact NM|].
    destruct (transform_all_gives _ _ _ T1) as (ys & E & El & Em).
    assert (NT : Ts <> []). { intros ->. inversion T1 as [HW|]. unfold weighted, objs in HW. destruct ms; [congruence|discriminate]. }
    destruct (sparse_union_ok Ts Ds cs r (sorted_reps _ _ _ _ T2) NT Hr) as (rows' & D' & EU & HB' & HS').
    assert (D' = D) as -> by (eapply beside_fun; eauto).
    pose proof (union_sorted r Ts Ds cs _ _ _ T2 NT EU) as SO.
    exists (Sp rows' (Some (Z.of_nat (list_sum cs))) DFloat). split.
    - unfold union_transform. fold objs. rewrite ES. rewrite ES in E, Em. assert (EC : check_data (V:=V) (DNum (Sp rows (Some (Z.of_nat c)) dt)) = Ok (DNum (Sp rows (Some (Z.of_nat c)) dt))) by reflexivity. rewrite EC, E.
      destruct ys as [|y ys]. { unfold weighted, objs in El. rewrite !map_length in El. destruct ms; [congruence|discriminate]. }
      unfold t_value. cbn [t_out t_after bind]. rewrite Em.
      assert (IS : existsb issparse Ts = true). { destruct T2 as [|Y M0 c0 Ys Ms cs0 (_ & _ & rows0 & dt0 & -> & _) T2]; [congruence|reflexivity]. }
      rewrite IS. assert (EL : data_len (V:=V) (DNum (Sp rows (Some (Z.of_nat c)) dt)) = Ok r). { cbn. f_equal. rewrite map_length. transitivity (length M); [exact (Forall2_len _ _ _ ST)|apply R]. }
      rewrite EL, EU. reflexivity.
    - split; [eapply beside_rect; eauto|]. split; [exact Hr|]. exists rows', DFloat. split; [reflexivity|].
      clear -HS' SO. induction HS' as [|d row rows D H HS' IH]; constructor; inversion SO; subst; auto. split; auto.
  Qed.

  Lemma scales_agree : forall (e : est F L V) c c', scales e c c' -> agrees e c c'.
  Proof.
    apply (scales_mut F L V agrees (fun ms ws c cs => Forall2 (fun ne c' => weight_of ws (fst ne) = None /\ agrees (snd ne) c c') ms cs)).
    - apply agrees_norm.
    - apply agrees_std.
    - apply agrees_std_none.
    - apply agrees_maxabs.
    - intros. apply agrees_last; auto.
    - intros. eapply agrees_step; eauto.
    - intros. apply agrees_union; auto.
    - constructor.
    - intros. constructor; auto.
  Qed.

  (** Predictions. *)
  Notation same := (same_answers (A:=F) (L:=L) (V:=V)).

  Lemma same_classifier : forall p pp lp cl (X Y : arr F), p X = p Y ->
    match pp with None => True | Some g => g X = g Y end -> match lp with None => True | Some g => g X = g Y end ->
    same (classifier p pp lp cl) (DNum X) (DNum Y).
  Proof.
    intros p pp lp cl X Y E1 E2 E3. split; [|split]; intros f E.
    - cbn in E. injection E as <-. cbn [fst as_num]. rewrite E1. reflexivity.
    - cbn in E. destruct pp as [g|]; [|discriminate]. injection E as <-. exact E2.
    - cbn in E. destruct lp as [g|]; [|discriminate]. injection E as <-. exact E3.
  Qed.

  Lemma foldM_same : forall {T W} (f g : W -> T -> res W) l a, (forall a x, f a x = g a x) -> foldM f l a = foldM g l a.
  Proof. induction l as [|x l IH]; intros a H; [reflexivity|]. cbn [foldM]. rewrite H. destruct (g a x); cbn [bind]; auto. Qed.

  Lemma same_proba : forall (e : est F L V) X Y, same (ob e) (DNum X) (DNum Y) -> proba_of (ob e) X = proba_of (ob e) Y.
  Proof. intros e X Y (_ & H & _). unfold proba_of. destruct (o_proba (ob e)) as [f|]; auto. Qed.

  Lemma models_same : forall (e : est F L V) c, models e c -> forall r S M, sparse_of r c S M -> same (ob e) (DNum S) (DNum (ll M)).
  Proof.
    intros e c H. induction H as [t sh c HE HF|t sh c HE HF|ms cl c HM IH|k l c K b HL HF|d c]; intros r S M HS; pose proof HS as (R & Hr & rows & dt & ES & ST).
    - subst S. destruct (C10_sparse_dense m L t sh M rows r c (Some (Z.of_nat c)) dt HE HF R Hr (sorted_stores _ _ ST)) as (E1 & E2 & E3 & _). apply same_classifier; auto.
    - subst S. destruct (C10_sparse_dense m L t sh M rows r c (Some (Z.of_nat c)) dt HE HF R Hr (sorted_stores _ _ ST)) as (_ & _ & _ & E4).
      split; [|split]; intros f E; try discriminate. cbn in E. injection E as <-. cbn [fst as_num]. rewrite E4. reflexivity.
    - cbn [obj_of]. set (b := {| b_members := map (fun m0 => proba_of (ob m0)) ms; b_feats := None; b_classes := cl |}).
      assert (P : forall idx, member_proba b S idx = member_proba b (ll M) idx).
      { intro idx. unfold member_proba. destruct (lnth (b_members b) idx) as [p|] eqn:E; [|reflexivity]. cbn [bind get_feats b b_feats feat_slice].
        apply lnth_ok in E. unfold b in E. cbn [b_members] in E. rewrite nth_error_map' in E. destruct (nth_error ms idx) as [e|] eqn:Ee; [|discriminate]. cbn in E. injection E as <-.
        apply same_proba. eapply IH; eauto. eapply nth_error_In; eauto. }
      assert (Q : bagging_predict_proba b S = bagging_predict_proba b (ll M)).
      { unfold bagging_predict_proba. rewrite P. destruct (member_proba b (ll M) 0) as [p0|]; [|reflexivity]. cbn [bind].
        rewrite (foldM_same _ (fun acc idx => pi <- member_proba b (ll M) idx ;; operate_2d (ll acc) (ll pi) add)); [reflexivity|]. intros a x. rewrite P. reflexivity. }
      apply same_classifier; [|exact Q|]; unfold bagging_predict, bagging_predict_log_proba; rewrite Q; reflexivity.
    - subst S. assert (HF' : Forall (Forall (fun w : F => is_finite w = true)) (l_coef l)).
      { eapply Forall_impl; [|exact HF]. intros w Hw. eapply Forall_impl; [|exact Hw]. intros x Hx. apply f_finite_iff. exact Hx. }
      destruct (C23_stored m L l c K b rows M r dt HL HF' ST R Hr) as (_ & E2 & E3 & E4 & E5 & E6).
      destruct k; cbn [obj_of]; apply same_classifier; auto.
      + destruct (check_proba l) as [u|] eqn:EC; cbn [is_ok]; auto. unfold sgd_predict_proba in E5. rewrite EC in E5. exact E5.
      + destruct (check_proba l) as [u|] eqn:EC; cbn [is_ok]; auto.
    - assert (EL : len S = len (ll M)). { subst S. cbn. f_equal. rewrite !map_length. exact (Forall2_len _ _ _ ST). }
      split; [|split]; intros f E; cbn in E; injection E as <-; cbn [fst]; unfold dummy_predict, dummy_predict_log_proba, dummy_predict_proba; cbn [as_sized]; rewrite EL; reflexivity.
  Qed.

  Lemma pipe_fst : forall {T} (get : obj F L V -> option (data F V -> res T * data F V)) steps nm final f g X Y,
    pipe_method get (steps ++ [(nm, final)]) = Some g -> get final = Some f -> applied (map snd steps) X Y -> fst (g X) = fst (f Y).
  Proof.
    intros T get steps nm final f g X Y EG EF HA. destruct (pipe_method_some get steps nm final f EF) as (g' & E' & H). assert (g' = g) by congruence. subst g'.
    destruct (H X) as [H1 H2]. destruct (fst (f Y)) as [p|e] eqn:E.
    - apply H1. eauto.
    - apply H2. right. eauto.
  Qed.
  Lemma pipe_get : forall {T} (get : obj F L V -> option (data F V -> res T * data F V)) steps nm final g,
    pipe_method get (steps ++ [(nm, final)]) = Some g -> exists f, get final = Some f.
  Proof. intros T get steps nm final g E. unfold pipe_method in E. rewrite last_step_app in E. destruct (get final); [eauto|discriminate]. Qed.

  Lemma pipeline_same : forall steps nm (final : est F L V) c c' r S M D f, scales (EPipeline steps) c c' -> models final c' -> sparse_of r c S M ->
    o_transform (ob (EPipeline steps)) = Some f -> t_value (f (DNum (ll M))) = Ok (DNum (ll D)) -> nan_free D ->
    same (ob (EPipeline (steps ++ [(nm, final)]))) (DNum S) (DNum (ll M)).
  Proof.
    intros steps nm final c c' r S M D f HC HM HS Ef ED ND. destruct (scales_agree _ _ _ HC) as (f' & Ef' & _ & H). assert (f' = f) by congruence. subst f'.
    destruct (H r S M HS) as (D' & ED' & RD & HN). assert (D' = D) as ->. { rewrite ED in ED'. apply ll_inj. injection ED' as ED'. exact (eq_sym (f_equal _ ED')). }
    destruct (HN ND) as (_ & T & ET & HT). pose proof (models_same final c' HM r T D HT) as (S1 & S2 & S3).
    cbn [obj_of] in *. rewrite map_app. cbn [map fst snd]. pose proof (pipe_run _ _ Ef) as ->.
    apply (run_ok _ None) in ED. apply (run_ok _ None) in ET. cbn [start] in ED, ET.
    split; [|split]; intros g EG; cbn [pipeline o_predict o_proba o_log_proba] in EG; destruct (pipe_get _ _ _ _ _ EG) as (h & Eh);
      (rewrite (pipe_fst _ _ _ _ _ _ _ _ EG Eh ET), (pipe_fst _ _ _ _ _ _ _ _ EG Eh ED); auto).
  Qed.
End Doubles.
