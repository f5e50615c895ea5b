(** Proofs about Model/Pipeline.v. *)
From Verif Require Import Model.Py Model.Arith Model.Utils Model.Base Model.DictVec Model.Text Model.Pipeline.
From Verif Require Import Spec.Matrix Spec.Pipeline Proofs.Lib Proofs.Arrays Proofs.Ensemble.

Section Pipe.
  Context {A : arith} {L V : Type}.

  Definition start (cur : option (data A V)) (X : data A V) := match cur with None => X | Some Y => Y end.

  Lemma run_ok : forall (steps : list (obj A L V)) cur X Z,
    t_value (run_steps steps cur X) = Ok Z <-> applied steps (start cur X) Z.
  Proof.
    induction steps as [|o rest IH]; intros cur X Z.
    - cbn. unfold t_value. cbn. split.
      + intro H. injection H as <-. destruct cur; constructor.
      + intro H. inversion H; subst. destruct cur; reflexivity.
    - cbn [run_steps]. unfold call_transform.
      assert (HA : o_transform o = None -> ~ applied (o :: rest) (start cur X) Z).
      { intros E H. inversion H; congruence. }
      destruct (o_transform o) as [f|] eqn:Ef.
      2:{ destruct cur; cbn; split; intro H; try discriminate; elim (HA eq_refl); auto. }
      clear HA. split.
      + intro H. destruct cur as [Xt|]; cbn [start] in *.
        * destruct (t_out (f Xt)) as [[Y|]|e] eqn:Eo; [| |discriminate].
          -- apply IH in H. eapply applied_cons; eauto. unfold t_value. rewrite Eo. reflexivity.
          -- apply IH in H. eapply applied_cons; eauto. unfold t_value. rewrite Eo. reflexivity.
        * destruct (t_out (f X)) as [y|e] eqn:Eo; [|discriminate]. apply IH in H.
          eapply applied_cons; eauto. unfold t_value. rewrite Eo. destruct y; reflexivity.
      + intro H. inversion H as [|o' r' f' X' Y' Z' E1 E2 E3]; subst.
        rewrite Ef in E1. injection E1 as <-. unfold t_value in E2.
        destruct cur as [Xt|]; cbn [start] in *.
        * destruct (t_out (f Xt)) as [[Y|]|e] eqn:Eo; cbn in E2; [| |discriminate];
            injection E2 as <-; apply IH; exact E3.
        * destruct (t_out (f X)) as [y|e] eqn:Eo; cbn in E2; [|discriminate].
          injection E2 as <-. apply IH. destruct y; exact E3.
  Qed.

  Lemma run_err : forall (steps : list (obj A L V)) cur X e,
    t_value (run_steps steps cur X) = Err e <-> stops_with steps (start cur X) e.
  Proof.
    induction steps as [|o rest IH]; intros cur X e.
    - cbn. unfold t_value. cbn. split; intro H; [discriminate|inversion H].
    - cbn [run_steps]. unfold call_transform.
      destruct (o_transform o) as [f|] eqn:Ef.
      2:{ destruct cur; cbn; (split; intro H;
            [injection H as <-; constructor; auto | inversion H; congruence]). }
      split.
      + intro H. destruct cur as [Xt|]; cbn [start] in *.
        * destruct (t_out (f Xt)) as [[Y|]|e'] eqn:Eo.
          -- apply IH in H. eapply stops_later; eauto. unfold t_value. rewrite Eo. reflexivity.
          -- apply IH in H. eapply stops_later; eauto. unfold t_value. rewrite Eo. reflexivity.
          -- cbn in H. injection H as <-. eapply stops_here; eauto. unfold t_value. rewrite Eo. reflexivity.
        * destruct (t_out (f X)) as [y|e'] eqn:Eo.
          -- apply IH in H. eapply stops_later; eauto. unfold t_value. rewrite Eo. destruct y; reflexivity.
          -- cbn in H. injection H as <-. eapply stops_here; eauto. unfold t_value. rewrite Eo. reflexivity.
      + intro H. inversion H as [o' r' X' E1 | o' r' f' X' e' E1 E2 | o' r' f' X' Y' e' E1 E2 E3]; subst;
          rewrite Ef in E1; try discriminate; injection E1 as <-; unfold t_value in E2.
        * destruct cur as [Xt|]; cbn [start] in *.
          -- destruct (t_out (f Xt)) as [[Y|]|e''] eqn:Eo; cbn in E2; try discriminate.
             injection E2 as <-. reflexivity.
          -- destruct (t_out (f X)) as [y|e''] eqn:Eo; cbn in E2; try discriminate.
             injection E2 as <-. reflexivity.
        * destruct cur as [Xt|]; cbn [start] in *.
          -- destruct (t_out (f Xt)) as [[Y|]|e''] eqn:Eo; cbn in E2; [| |discriminate];
               injection E2 as <-; apply IH; exact E3.
          -- destruct (t_out (f X)) as [y|e''] eqn:Eo; cbn in E2; [|discriminate].
             injection E2 as <-. apply IH. destruct y; exact E3.
  Qed.

  Lemma last_step_app : forall (steps : list (pystr * obj A L V)) nm final,
    last_step (steps ++ [(nm, final)]) = Some final.
  Proof.
    intros. unfold last_step. rewrite app_length. cbn [length].
    replace (length steps + 1 - 1) with (length steps) by lia.
    rewrite nth_error_app2 by lia. rewrite Nat.sub_diag. reflexivity.
  Qed.
  Lemma init_steps_app : forall (steps : list (pystr * obj A L V)) nf,
    init_steps (steps ++ [nf]) = map snd steps.
  Proof.
    intros. unfold init_steps. rewrite app_length. cbn [length].
    replace (length steps + 1 - 1) with (length steps) by lia.
    rewrite firstn_app, firstn_all, Nat.sub_diag. cbn. rewrite app_nil_r. reflexivity.
  Qed.

  Lemma pipe_method_some : forall {T} (get : obj A L V -> option (data A V -> res T * data A V))
    steps nm final f, get final = Some f ->
    exists g, pipe_method get (steps ++ [(nm, final)]) = Some g /\
      forall X, (forall p, fst (g X) = Ok p <-> exists Z, applied (map snd steps) X Z /\ fst (f Z) = Ok p) /\
                (forall e, fst (g X) = Err e <-> stops_with (map snd steps) X e \/
                             exists Z, applied (map snd steps) X Z /\ fst (f Z) = Err e).
  Proof.
    intros T get steps nm final f E. unfold pipe_method. rewrite last_step_app, E, init_steps_app.
    eexists. split; [reflexivity|]. intro X. cbv beta zeta.
    set (r := run_steps (map snd steps) None X).
    assert (Hv : (exists Z, t_value r = Ok Z /\ (forall Z', applied (map snd steps) X Z' <-> Z' = Z) /\
                   (forall e, ~ stops_with (map snd steps) X e) /\
                   fst (match t_out r with
                        | Err e => (Err e, t_after r)
                        | Ok None => f (t_after r)
                        | Ok (Some Xt) => (fst (f Xt), t_after r) end) = fst (f Z)) \/
                 (exists e, (forall Z', ~ applied (map snd steps) X Z') /\
                   (forall e', stops_with (map snd steps) X e' <-> e' = e) /\
                   match t_out r with
                        | Err e => (Err e, t_after r)
                        | Ok None => f (t_after r)
                        | Ok (Some Xt) => (fst (f Xt), t_after r) end = (Err e, t_after r))).
    { pose proof (run_ok (map snd steps) None X) as RO. pose proof (run_err (map snd steps) None X) as RE.
      cbn [start] in *. fold r in RO, RE.
      destruct (t_value r) as [Z|e] eqn:Ev.
      - left. exists Z. split; [reflexivity|]. split; [|split].
        + intro Z'. rewrite <- RO. split; congruence.
        + intros e He. apply RE in He. discriminate.
        + unfold t_value in Ev. destruct (t_out r) as [[Y|]|e]; cbn in Ev; try discriminate;
            injection Ev as <-; reflexivity.
      - right. exists e. split; [|split].
        + intros Z' H. apply RO in H. discriminate.
        + intro e'. rewrite <- RE. split; congruence.
        + unfold t_value in Ev. destruct (t_out r) as [[Y|]|e']; cbn in Ev; try discriminate.
          injection Ev as <-. reflexivity. }
    destruct Hv as [(Z & Ev & HA & HS & Hf) | (e & HA & HS & Hf)]; rewrite Hf; split; intro y.
    - split.
      + intro H. exists Z. split; [apply HA; auto|auto].
      + intros (Z' & H1 & H2). apply HA in H1. subst; auto.
    - split.
      + intro H. right. exists Z. split; [apply HA; auto|auto].
      + intros [H|(Z' & H1 & H2)]; [elim (HS _ H)|]. apply HA in H1. subst; auto.
    - split; [discriminate|]. intros (Z' & H1 & _). elim (HA _ H1).
    - cbn [fst]. split.
      + intro H. left. apply HS. congruence.
      + intros [H|(Z' & H1 & _)]; [|elim (HA _ H1)]. apply HS in H. subst; auto.
  Qed.

  Lemma pipe_method_none : forall {T} (get : obj A L V -> option (data A V -> res T * data A V))
    steps nm final, pipe_method get (steps ++ [(nm, final)]) = None <-> get final = None.
  Proof.
    intros. unfold pipe_method. rewrite last_step_app. destruct (get final); split; congruence.
  Qed.

  (** Feature union: the members, when each leaves X alone. *)
  Definition member_gives (X : data A V) (m : obj A L V * option A) (Y : arr A) : Prop :=
    match snd m with
    | None => gives (fst m) X Y
    | Some w => exists M M', gives (fst m) X (ll M) /\ scaled (Some w) M M' /\ Y = ll M'
    end.

  Lemma scaled_apply : forall w (M M' : list (list A)), scaled (Some w) M M' ->
    apply_2d (ll M) (fun x => Ok (mul x w)) = Ok M'.
  Proof.
    intros w M M' H. unfold apply_2d. cbn [issparse ll].
    change (items (ll M)) with (@Ok (list (item A)) (map Ls M)). cbn [bind].
    rewrite mapM_map. apply mapM_Forall2. cbn in H. eapply Forall2_imp; [|exact H].
    intros a b Hab. cbn. apply mapM_Forall2. eapply Forall2_imp; [|exact Hab]. cbn. congruence.
  Qed.

  Lemma transform_all_gives : forall ms X Ys,
    Forall2 (member_gives X) ms Ys ->
    exists ys, transform_all ms X = (Ok ys, X) /\ length ys = length ms /\
      map (fun y => match y with None => as_arr X | Some Y => Y end) ys = Ys.
  Proof.
    intros ms X Ys H. induction H as [|[o w] Y ms Ys Hm H IH].
    - exists []. auto.
    - destruct IH as (ys & E & El & Em). cbn [transform_all].
      assert (Hone : exists y, transform_one o w X = (Ok y, X) /\
                match y with None => as_arr X | Some Y => Y end = Y).
      { unfold member_gives in Hm. cbn [fst snd] in Hm. unfold transform_one, call_transform. destruct w as [w|].
        - destruct Hm as (M & M' & (f & E1 & E2 & E3) & Hs & ->). rewrite E1, E2, E3. cbn [bind as_arr].
          rewrite (scaled_apply _ _ _ Hs). cbn [bind]. eauto.
        - destruct Hm as (f & E1 & E2 & E3). rewrite E1, E3. unfold t_value in E2.
          destruct (t_out (f X)) as [[y|]|e]; cbn in *; try discriminate.
          + injection E2 as ->. eauto.
          + injection E2 as E2. rewrite E3 in E2. eexists. split; [reflexivity|].
            cbn. rewrite E2. reflexivity. }
      destruct Hone as (y & E1 & Ey). rewrite E1, E.
      exists (y :: ys). split; auto. cbn [length map]. split; [lia|]. congruence.
  Qed.

  (** Concatenation of the rows number [i]. *)
  Lemma reduce_rows : forall (rows : list (list A)) r,
    reduce row_add (map (fun x => Ls x) (r :: rows)) = Ok (Ls (concat (r :: rows))).
  Proof.
    intros rows r. cbn [map reduce concat].
    revert r. induction rows as [|a rows IH]; intros r; cbn [map foldM concat].
    - rewrite app_nil_r. reflexivity.
    - cbn [row_add bind]. rewrite IH. rewrite app_assoc. reflexivity.
  Qed.

  Lemma rows_of_index : forall (Ms : list (list (list A))) n i,
    Forall (fun M => length M = n) Ms -> i < n ->
    exists rows, Forall2 (fun M r => nth_error M i = Some r) Ms rows.
  Proof.
    intros Ms n i H Hi. induction H as [|M Ms HM H IH]; [exists []; constructor|].
    destruct IH as (rows & IH). destruct (nth_error M i) as [r|] eqn:E.
    - exists (r :: rows). constructor; auto.
    - apply nth_error_None in E. lia.
  Qed.

  Lemma dense_union_ok : forall (Ms : list (list (list A))) n,
    Ms <> [] -> Forall (fun M => length M = n) Ms ->
    exists M, dense_union (map ll Ms) n = Ok (ll M) /\ beside n Ms M.
  Proof.
    intros Ms n Hne HL. unfold dense_union.
    assert (HF : exists M, mapM (fun index =>
                 rows <- mapM (fun X : arr A => row_at X index) (map ll Ms) ;;
                 r <- reduce row_add rows ;; iter_item r) (range n) = Ok M /\
               Forall2 (fun i row => exists rows, Forall2 (fun M' r => nth_error M' i = Some r) Ms rows
                                       /\ row = concat rows) (range n) M).
    { assert (HT : forall i, In i (range n) -> exists row,
        (rows <- mapM (fun X : arr A => row_at X i) (map ll Ms) ;;
                 r <- reduce row_add rows ;; iter_item r) = Ok row /\
        exists rows, Forall2 (fun M' r => nth_error M' i = Some r) Ms rows /\ row = concat rows).
      { intros i Hi. apply in_seq in Hi. destruct (rows_of_index Ms n i HL) as (rows & HR); [lia|].
        exists (concat rows). split; [|eauto].
        assert (E : mapM (fun X : arr A => row_at X i) (map ll Ms) = Ok (map (fun x => Ls x) rows)).
        { rewrite mapM_map. apply mapM_Forall2. apply Forall2_map_r. eapply Forall2_imp; [|exact HR].
          intros M r E. unfold row_at. change (items (ll M)) with (@Ok (list (item A)) (map Ls M)).
          cbn [bind]. apply lnth_ok. rewrite nth_error_map', E. reflexivity. }
        rewrite E. cbn [bind]. destruct rows as [|r rows].
        - inversion HR; subst. elim Hne; auto.
        - rewrite reduce_rows. cbn [bind]. reflexivity. }
      revert HT. generalize (range n). induction l as [|i l IH]; intro HT.
      - exists []. split; [reflexivity|constructor].
      - destruct (HT i (or_introl eq_refl)) as (row & E1 & E2).
        destruct IH as (M & E3 & E4); [intros; apply HT; right; auto|].
        exists (row :: M). split; [|constructor; auto]. cbn [mapM]. rewrite E1. cbn [bind].
        rewrite E3. reflexivity. }
    destruct HF as (M & E & HF). rewrite E. cbn [bind]. exists M. split; auto. split.
    - rewrite <- (Forall2_len _ _ _ HF). apply seq_length.
    - intros i row Hi. destruct (proj1 (Forall2_nth_error _ _ _) HF) as [_ HN].
      destruct (nth_error (range n) i) as [j|] eqn:Ej.
      + unfold range in Ej. rewrite nth_error_seq in Ej. destruct (i <? n); [|discriminate].
        injection Ej as <-. eapply (HN i i row); eauto. unfold range. rewrite nth_error_seq.
        destruct (i <? n) eqn:Elt; auto. apply Nat.ltb_ge in Elt.
        apply nth_error_lt in Hi. rewrite <- (Forall2_len _ _ _ HF) in Hi. unfold range in Hi. rewrite seq_length in Hi. lia.
      + apply nth_error_None in Ej. apply nth_error_lt in Hi. rewrite <- (Forall2_len _ _ _ HF) in Hi. lia.
  Qed.

  (** Sparse union. *)
  Definition shift (s : Z) (d : dict Z A) : dict Z A := map (fun kv => ((fst kv + s)%Z, snd kv)) d.

  Definition stores_at (s : Z) (d : dict Z A) (r : list A) : Prop :=
    NoDup (map fst d) /\
    (forall k, In k (map fst d) -> (s <= k < s + Z.of_nat (length r))%Z) /\
    (forall j v, nth_error r j = Some v ->
       In ((s + Z.of_nat j)%Z, v) d \/ (~ In (s + Z.of_nat j)%Z (map fst d) /\ is0 v)).

  Lemma shift_keys : forall s d, map fst (shift s d) = map (fun k => (k + s)%Z) (map fst d).
  Proof. intros. unfold shift. rewrite !map_map. reflexivity. Qed.

  Lemma stores_shift : forall s d r, stores d r -> stores_at s (shift s d) r.
  Proof.
    intros s d r (H1 & H2 & H3). split; [|split].
    - rewrite shift_keys. apply FinFun.Injective_map_NoDup; auto. intros x y E. lia.
    - intros k Hk. rewrite shift_keys in Hk. apply in_map_iff in Hk. destruct Hk as (k' & <- & Hk).
      apply H2 in Hk. lia.
    - intros j v Hj. destruct (H3 j v Hj) as [(w & Hw & ->)|[Hn H0]].
      + left. apply in_map_iff. exists (Z.of_nat j, v). split; auto. cbn. f_equal. lia.
      + right. split; auto. rewrite shift_keys. intro Hin. apply in_map_iff in Hin.
        destruct Hin as (k' & E & Hk). apply Hn. replace (Z.of_nat j) with k' by lia. auto.
  Qed.

  Lemma NoDup_app_intro : forall {T} (l m : list T), NoDup l -> NoDup m ->
    (forall x, In x l -> ~ In x m) -> NoDup (l ++ m).
  Proof.
    intros T l m Hl Hm Hd. induction Hl as [|x l Hx Hl IH]; cbn; auto. constructor.
    - rewrite in_app_iff. intros [H|H]; [auto|]. apply (Hd x); cbn; auto.
    - apply IH. intros y Hy. apply Hd. right; auto.
  Qed.

  Lemma stores_at_app : forall s d r d' r', stores_at s d r ->
    stores_at (s + Z.of_nat (length r)) d' r' -> stores_at s (d ++ d') (r ++ r').
  Proof.
    intros s d r d' r' (A1 & A2 & A3) (B1 & B2 & B3). split; [|split].
    - rewrite map_app. apply NoDup_app_intro; auto. intros x Hx Hx'. apply A2 in Hx. apply B2 in Hx'. lia.
    - intros k Hk. rewrite map_app, in_app_iff in Hk. rewrite app_length.
      destruct Hk as [Hk|Hk]; [apply A2 in Hk | apply B2 in Hk]; lia.
    - intros j v Hj. rewrite map_app, in_app_iff, in_app_iff.
      destruct (Nat.lt_ge_cases j (length r)) as [Hlt|Hge].
      + rewrite nth_error_app1 in Hj by auto. destruct (A3 j v Hj) as [H|[H H0]]; [left; auto|].
        right. split; auto. intros [H'|H']; [auto|]. apply B2 in H'. lia.
      + rewrite nth_error_app2 in Hj by auto.
        assert (Ej : (s + Z.of_nat j = s + Z.of_nat (length r) + Z.of_nat (j - length r))%Z) by lia.
        destruct (B3 _ v Hj) as [H|[H H0]].
        * left. right. rewrite Ej. exact H.
        * right. split; auto. intros [H'|H']; [apply A2 in H'; lia|]. apply H. rewrite <- Ej. exact H'.
  Qed.

  Lemma stores_at_0 : forall d r, stores_at 0 d r -> stores d r.
  Proof.
    intros d r (H1 & H2 & H3). split; auto. split; auto. intros j v Hj.
    destruct (H3 j v Hj) as [H|H]; [left; eauto | right; exact H].
  Qed.

  Lemma stores_blocks : forall (ds : list (dict Z A)) rows cs t,
    Forall2 stores ds rows -> Forall2 (fun r c => length r = c) rows cs ->
    stores_at t (concat (map (fun p => shift (fst p) (snd p))
                          (combine (t :: accumu_from t (map Z.of_nat cs)) ds))) (concat rows).
  Proof.
    intros ds rows cs t H. revert cs t. induction H as [|d r ds rows Hd H IH]; intros cs t Hc;
      inversion Hc as [|r' c rows' cs' Ec Hc']; subst.
    - cbn. split; [constructor|]. split; [intros k []|]. intros [|j]; discriminate.
    - cbn [combine map concat accumu_from fst snd]. apply stores_at_app; [apply stores_shift; auto|].
      apply (IH cs' (t + Z.of_nat (length r))%Z); auto.
  Qed.

  Lemma reduce_app : forall (bs : list (dict Z A)), bs <> [] ->
    reduce (fun a b => Ok (a ++ b)) bs = Ok (concat bs).
  Proof.
    intros [|b bs] H; [elim H; auto|]. cbn [reduce concat]. clear H. revert b.
    induction bs as [|b' bs IH]; intro b; cbn [foldM concat bind].
    - rewrite app_nil_r; auto.
    - rewrite IH, app_assoc. reflexivity.
  Qed.

  Lemma accumu_length : forall l t, length (accumu_from t l) = length l.
  Proof. induction l; intro t; cbn; auto. Qed.

  Lemma fold_add : forall l t, fold_left Z.add l t = (t + fold_left Z.add l 0)%Z.
  Proof.
    induction l as [|x l IH]; intro t; cbn; [lia|]. rewrite (IH (t + x)%Z), (IH x). lia.
  Qed.
  Lemma sum_sizes : forall cs, fold_left Z.add (map Z.of_nat cs) 0%Z = Z.of_nat (list_sum cs).
  Proof.
    induction cs as [|c cs IH]; cbn; auto. rewrite fold_add, IH. unfold list_sum. cbn. lia.
  Qed.

  (** one member as a sparse list *)
  Definition sparse_rep (Y : arr A) (M : list (list A)) (c : nat) : Prop :=
    exists rows dt, Y = Sp rows (Some (Z.of_nat c)) dt /\ Forall2 stores rows M.

  Inductive reps (P : arr A -> list (list A) -> nat -> Prop) :
    list (arr A) -> list (list (list A)) -> list nat -> Prop :=
  | reps_nil : reps P [] [] []
  | reps_cons : forall Y M c Ys Ms cs, P Y M c -> reps P Ys Ms cs -> reps P (Y :: Ys) (M :: Ms) (c :: cs).

  Lemma union_row_ok : forall Ys Ms cs n i, reps sparse_rep Ys Ms cs ->
    Forall2 (fun M c => rect M n c) Ms cs -> Ys <> [] -> i < n ->
    exists d rows, union_row Ys (0%Z :: accumu (map Z.of_nat cs)) i = Ok d /\
      Forall2 (fun M r => nth_error M i = Some r) Ms rows /\ stores d (concat rows).
  Proof.
    intros Ys Ms cs n i H HR Hne Hi.
    assert (Hds : exists ds rows, Forall2 (fun Y d => row_at Y i = Ok (Di d)) Ys ds /\
              Forall2 (fun M r => nth_error M i = Some r) Ms rows /\
              Forall2 stores ds rows /\ Forall2 (fun r c => length r = c) rows cs).
    { clear Hne. induction H as [|Y M c Ys Ms cs (rows & dt & -> & HF) H IH].
      - exists [], []. repeat split; constructor.
      - inversion HR as [|? ? ? ? [HL HW] HR']; subst. destruct (IH HR') as (ds & rs & I1 & I2 & I3 & I4).
        destruct (nth_error M i) as [r|] eqn:Er; [|apply nth_error_None in Er; lia].
        destruct (nth_error rows i) as [d|] eqn:Ed.
        2:{ apply nth_error_None in Ed. rewrite (Forall2_len _ _ _ HF) in Ed. lia. }
        exists (d :: ds), (r :: rs).
        assert (Hrow : row_at (Sp rows (Some (Z.of_nat c)) dt) i = Ok (Di d)).
        { unfold row_at. cbn [items bind]. apply lnth_ok. rewrite nth_error_map', Ed. reflexivity. }
        assert (Hst : stores d r).
        { apply (proj2 (proj1 (Forall2_nth_error _ _ _) HF) i); auto. }
        assert (Hlen : length r = c).
        { rewrite Forall_forall in HW. apply HW. eapply nth_error_In; eauto. }
        repeat split; constructor; auto. }
    destruct Hds as (ds & rows & D1 & D2 & D3 & D4).
    set (blocks := map (fun p => shift (fst p) (snd p)) (combine (0%Z :: accumu (map Z.of_nat cs)) ds)).
    assert (Lds : length ds = length Ys) by (symmetry; eapply Forall2_len; eauto).
    assert (Lcs : length cs = length Ys).
    { rewrite <- (Forall2_len _ _ _ D4), <- (Forall2_len _ _ _ D3). auto. }
    assert (Lb : length blocks = length Ys).
    { unfold blocks, accumu. rewrite map_length, combine_length. cbn [length].
      rewrite accumu_length, map_length. lia. }
    assert (Hst : stores (concat blocks) (concat rows)).
    { apply stores_at_0. apply stores_blocks; auto. }
    exists (concat blocks), rows. split; [|auto].
    unfold union_row.
    assert (E : mapM (fun i0 => X <- lnth Ys i0 ;; x <- row_at X i ;; d <- item_items x ;;
                s <- lnth (0%Z :: accumu (map Z.of_nat cs)) i0 ;;
                Ok (dict_of Z.eqb (map (fun kv => ((fst kv + s)%Z, snd kv)) d)))
                   (range (length Ys)) = Ok blocks).
    { apply mapM_Forall2. apply Forall2_nth_error. split; [unfold range; rewrite seq_length; auto|].
      intros k k' b Hk Hb. unfold range in Hk. rewrite nth_error_seq in Hk.
      destruct (k <? length Ys) eqn:Ek; [|discriminate]. injection Hk as <-. cbn [Nat.add].
      apply Nat.ltb_lt in Ek.
      destruct (nth_error Ys k) as [Y|] eqn:EY; [|apply nth_error_None in EY; lia].
      unfold blocks in Hb. rewrite nth_error_map', nth_error_combine in Hb.
      destruct (nth_error (0%Z :: accumu (map Z.of_nat cs)) k) as [s|] eqn:Es; [|discriminate].
      destruct (nth_error ds k) as [d|] eqn:Ed; [|discriminate]. cbn in Hb. injection Hb as <-.
      rewrite (proj2 (lnth_ok _ _ _) EY). cbn [bind].
      rewrite (proj2 (proj1 (Forall2_nth_error _ _ _) D1) k Y d EY Ed). cbn [bind item_items].
      rewrite (proj2 (lnth_ok _ _ _) Es). cbn [bind]. f_equal. apply dict_of_nodup; [apply Z.eqb_eq|].
      change (map fst (map (fun kv : Z * A => ((fst kv + s)%Z, snd kv)) d)) with (map fst (shift s d)).
      destruct (nth_error rows k) as [r|] eqn:Er.
      - apply (stores_shift s d r). apply (proj2 (proj1 (Forall2_nth_error _ _ _) D3) k); auto.
      - apply nth_error_None in Er. rewrite <- (Forall2_len _ _ _ D3) in Er. apply nth_error_lt in Ed. lia. }
    rewrite E. cbn [bind]. rewrite reduce_app.
    - cbn [bind]. f_equal. apply dict_of_nodup; [apply Z.eqb_eq|]. apply Hst.
    - intro Hb. rewrite Hb in Lb. destruct Ys; [elim Hne; auto|discriminate].
  Qed.

  Definition wide (Y : arr A) (c : nat) : Prop := issparse Y = true \/ 1 <= c.

  Lemma sparse_union_ok : forall Ys Ms cs n,
    reps (fun Y M c => represents Y M n c /\ wide Y c) Ys Ms cs -> Ys <> [] -> 1 <= n ->
    exists rows M, sparse_union Ys (Ok n) = Ok (Sp rows (Some (Z.of_nat (list_sum cs))) DFloat) /\
      beside n Ms M /\ Forall2 stores rows M.
  Proof.
    intros Ys Ms cs n H Hne Hn. unfold sparse_union.
    assert (H1 : exists Ys', mapM (fun X : arr A => if issparse X then Ok X else tosparse X) Ys = Ok Ys' /\
              reps sparse_rep Ys' Ms cs).
    { clear Hne. induction H as [|Y M c Ys Ms cs [[HR HY] HW] H IH].
      - exists []. split; [reflexivity|constructor].
      - destruct IH as (Ys' & E & IH).
        assert (HY' : exists Y', (if issparse Y then Ok Y else tosparse Y) = Ok Y' /\ sparse_rep Y' M c).
        { destruct HY as [->|(rows & dt & -> & HF)].
          - cbn [issparse ll]. rewrite (tosparse_ok M n c); auto.
            + eexists. split; [reflexivity|]. exists (map sprow M), DFloat. split; auto.
              apply Forall2_map_l. apply Forall2_diag. intros x _. apply sprow_stores.
            + destruct HW as [HW|HW]; [discriminate|auto].
          - cbn [issparse]. eexists. split; [reflexivity|]. exists rows, dt. auto. }
        destruct HY' as (Y' & E1 & E2). exists (Y' :: Ys'). split; [|constructor; auto].
        cbn [mapM]. rewrite E1. cbn [bind]. rewrite E. reflexivity. }
    destruct H1 as (Ys' & E & H1). rewrite E. cbn [bind].
    assert (E2 : mapM size_of Ys' = Ok (map (fun c => Some (Z.of_nat c)) cs)).
    { clear -H1. induction H1 as [|Y M c Ys Ms cs (rows & dt & -> & HF) H1 IH]; [reflexivity|].
      cbn [mapM size_of bind map]. rewrite IH. reflexivity. }
    rewrite E2. cbn [bind].
    assert (E3 : mapM known_size (map (fun c => Some (Z.of_nat c)) cs) = Ok (map Z.of_nat cs)).
    { rewrite mapM_map. cbn [known_size]. apply mapM_Ok. }
    rewrite E3. cbn [bind].
    assert (HR : Forall2 (fun M c => rect M n c) Ms cs).
    { clear -H. induction H as [|Y M c Ys Ms cs [[HR HY] HW] H IH]; constructor; auto. }
    assert (Hne' : Ys' <> []).
    { intro Hb. subst. inversion H1; subst. inversion H; subst. elim Hne; auto. }
    assert (HT : forall i, In i (range n) -> exists d rows,
               union_row Ys' (0%Z :: accumu (map Z.of_nat cs)) i = Ok d /\
               Forall2 (fun M r => nth_error M i = Some r) Ms rows /\ stores d (concat rows)).
    { intros i Hi. apply in_seq in Hi. eapply union_row_ok; eauto. lia. }
    assert (HF : exists ds M, mapM (union_row Ys' (0%Z :: accumu (map Z.of_nat cs))) (range n) = Ok ds /\
              Forall2 stores ds M /\
              Forall2 (fun i row => exists rows, Forall2 (fun M r => nth_error M i = Some r) Ms rows /\
                                      row = concat rows) (range n) M).
    { revert HT. generalize (range n). induction l as [|i l IH]; intro HT.
      - exists [], []. repeat split; constructor.
      - destruct (HT i (or_introl eq_refl)) as (d & rows & T1 & T2 & T3).
        destruct IH as (ds & M & I1 & I2 & I3); [intros; apply HT; right; auto|].
        exists (d :: ds), (concat rows :: M). split; [|split; constructor; eauto].
        cbn [mapM]. rewrite T1. cbn [bind]. rewrite I1. reflexivity. }
    destruct HF as (ds & M & F1 & F2 & F3). rewrite F1. cbn [bind].
    exists ds, M. rewrite sum_sizes. split; [|split; [split|auto]].
    - unfold sparse_list. destruct ds; auto. inversion F2; subst. apply Forall2_len in F3.
      unfold range in F3. rewrite seq_length in F3. cbn in F3. lia.
    - rewrite <- (Forall2_len _ _ _ F3). apply seq_length.
    - intros i row Hi. assert (Hr : nth_error (range n) i = Some i).
      { unfold range. rewrite nth_error_seq. destruct (i <? n) eqn:Elt; auto. apply Nat.ltb_ge in Elt.
        apply nth_error_lt in Hi. rewrite <- (Forall2_len _ _ _ F3) in Hi. unfold range in Hi.
        rewrite seq_length in Hi. lia. }
      apply (proj2 (proj1 (Forall2_nth_error _ _ _) F3) i i row); auto.
  Qed.
End Pipe.
