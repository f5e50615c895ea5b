(** Averaging ensembles. *)
From Coq Require Import Reals Lia Lra.
From Verif Require Import Model.Py Model.Arith Model.Utils Model.Base Model.Tree Model.Ensemble.
From Verif Require Import Spec.Matrix Spec.Ensembles.
From Verif Require Import Proofs.Lib Proofs.Laws Proofs.Unit Proofs.Argmax Proofs.Arrays Proofs.Arrays2 Proofs.Tree.
Local Open Scope nat_scope.

Section Two.
  Context {A : arith}.

  Lemma apply_2d_ll : forall {B} (M : list (list A)) (f : A -> res B), apply_2d (ll M) f = mapM (mapM f) M.
  Proof.
    intros B M f. unfold apply_2d, ll. simpl. rewrite mapM_map. apply mapM_ext. intros; reflexivity.
  Qed.

  Lemma shape_ll' : forall (M : list (list A)) r c, rect M r c -> 1 <= r ->
    shape (ll M) = Ok (S2 (Z.of_nat r) (Some (Z.of_nat c))).
  Proof.
    intros [|row M] r c [HL HR] H1; [simpl in HL; lia|]. inversion HR; subst.
    unfold shape, ll. simpl. rewrite map_length. auto.
  Qed.

  Lemma shp_refl : forall n m, shp_eqb (S2 n (Some m)) (S2 n (Some m)) = true.
  Proof. intros. simpl. rewrite !Z.eqb_refl. auto. Qed.

  Lemma operate_2d_ll : forall (P Q : list (list A)) r c f, rect P r c -> rect Q r c -> 1 <= r ->
    operate_2d (ll P) (ll Q) f = Ok (zip_with (zip_with f) P Q).
  Proof.
    intros P Q r c f HP HQ H1. unfold operate_2d. simpl issparse. cbn [orb].
    rewrite (shape_ll' P r c), (shape_ll' Q r c) by auto. cbn [bind]. rewrite shp_refl. cbn [guard bind].
    unfold ll. cbn [items bind].
    destruct HP as [LP _], HQ as [LQ _].
    rewrite mapM_range_nth2 by (rewrite !map_length; congruence).
    replace (combine (map Ls P) (map Ls Q)) with (map (fun p : list A * list A => (Ls (fst p), Ls (snd p))) (combine P Q)).
    2:{ clear. revert Q. induction P as [|p P IH]; intros [|q Q]; simpl; auto. rewrite IH; auto. }
    rewrite mapM_map. cbn [fst snd iter_item bind]. rewrite mapM_Ok. f_equal. rewrite zip_with_combine. auto.
  Qed.

  Lemma rect_zip : forall {T U V} (P : list (list T)) (Q : list (list U)) r c (f : T -> U -> V), rect P r c -> rect Q r c ->
    rect (zip_with (zip_with f) P Q) r c /\
    forall i j, cell (zip_with (zip_with f) P Q) i j =
      match cell P i j, cell Q i j with Some a, Some b => Some (f a b) | _, _ => None end.
  Proof.
    intros T U V P Q r c f [LP RP] [LQ RQ]. split; [split|].
    - rewrite zip_with_length, LP, LQ. apply Nat.min_id.
    - rewrite zip_with_combine. apply Forall_forall. intros x Hx. apply in_map_iff in Hx.
      destruct Hx as ([p q] & <- & Hin). cbn [fst snd]. rewrite zip_with_length.
      rewrite Forall_forall in RP, RQ.
      rewrite (RP p), (RQ q); [apply Nat.min_id|eapply in_combine_r; eauto|eapply in_combine_l; eauto].
    - intros i j. unfold cell. rewrite zip_with_nth.
      destruct (nth_error P i) as [p|]; auto. destruct (nth_error Q i) as [q|]; [apply zip_with_nth|].
      destruct (nth_error p j); auto.
  Qed.

  Lemma mapM_rect : forall {T U} (f : T -> res U) (M : list (list T)) N r c, rect M r c -> mapM (mapM f) M = Ok N ->
    rect N r c /\ forall i j v, cell M i j = Some v -> exists w, cell N i j = Some w /\ f v = Ok w.
  Proof.
    intros T U f M N r c [LM RM] H. split; [split|].
    - rewrite (mapM_length _ _ _ H). auto.
    - apply Forall_forall. intros y Hy. destruct (mapM_in _ _ _ _ H Hy) as (x & Hx & E).
      rewrite (mapM_length _ _ _ E). rewrite Forall_forall in RM. auto.
    - intros i j v. unfold cell. destruct (nth_error M i) as [row|] eqn:E; [|discriminate]. intro Hj.
      destruct (mapM_nth _ _ _ _ _ H E) as (row' & -> & E'). destruct (mapM_nth _ _ _ _ _ E' Hj) as (w & -> & Ew). eauto.
  Qed.

  Lemma mapM_rect_total : forall {T U} (f : T -> res U) (M : list (list T)),
    (forall v, exists w, f v = Ok w) -> exists N, mapM (mapM f) M = Ok N.
  Proof. intros T U f M H. apply mapM_total. intros row _. apply mapM_total. intros; apply H. Qed.
End Two.

Section Bag.
  Context {A : arith} {L : Type}.

  Lemma fold_rect : forall (Ps : list (list (list A))) P0 r c, 1 <= r -> Forall (fun P => rect P r c) (P0 :: Ps) ->
    let S := fold_left (zip_with (zip_with add)) Ps P0 in
    rect S r c /\
    forall i j, i < r -> j < c -> exists v0 vs, cells (P0 :: Ps) i j (v0 :: vs) /\ cell S i j = Some (fold_left add vs v0).
  Proof.
    induction Ps as [|P Ps IH]; intros P0 r c H1 HF.
    - inversion HF; subst. simpl. split; auto. intros i j Hi Hj. destruct (rect_cell P0 r c i j) as [v Hv]; auto.
      exists v, []. split; auto. repeat constructor; auto.
    - inversion HF as [|? ? R0 HF']; subst. inversion HF' as [|? ? R1 HF'']; subst.
      destruct (rect_zip P0 P r c add R0 R1) as [RZ CZ].
      destruct (IH (zip_with (zip_with add) P0 P) r c H1 (Forall_cons (zip_with (zip_with add) P0 P) RZ HF'')) as [RS CS]. split; auto.
      intros i j Hi Hj. destruct (CS i j Hi Hj) as (v0 & vs & HC & HS).
      inversion HC; subst. rewrite CZ in H3.
      destruct (rect_cell P0 r c i j R0 Hi Hj) as [a Ha]. destruct (rect_cell P r c i j R1 Hi Hj) as [b Hb].
      rewrite Ha, Hb in H3. inversion H3; subst. exists a, (b :: vs). split; auto.
      constructor; auto.
  Qed.

  (** The loop of predict_proba over members 1.. *)
  Lemma bag_loop : forall (b : bagging A L) X r c Ps k P0, 1 <= r ->
    rect P0 r c -> Forall (fun P => rect P r c) Ps ->
    (forall i P, nth_error Ps i = Some P -> member_proba b X (k + i) = Ok P) ->
    foldM (fun acc idx => pi <- member_proba b X idx ;; operate_2d (ll acc) (ll pi) add) (seq k (length Ps)) P0
    = Ok (fold_left (zip_with (zip_with add)) Ps P0).
  Proof.
    intros b X r c Ps; induction Ps as [|P Ps IH]; intros k P0 H1 R0 HF HM; simpl; auto.
    inversion HF; subst. pose proof (HM 0 P eq_refl) as E. rewrite Nat.add_0_r in E. rewrite E. cbn [bind].
    rewrite (operate_2d_ll P0 P r c) by auto. cbn [bind]. apply IH; auto.
    - apply rect_zip; auto.
    - intros i P' Hi. replace (S k + i) with (k + S i) by lia. apply HM. auto.
  Qed.

  Lemma bagging_mean : forall (b : bagging A L) X (Ps : list (list (list A))) r c,
    1 <= r -> Ps <> [] -> length Ps = length (b_members b) ->
    (forall x : A, exists q, div x (ofnat (length Ps)) = Ok q) ->
    Forall (fun P => rect P r c) Ps ->
    (forall k P, nth_error Ps k = Some P -> member_proba b X k = Ok P) ->
    exists P, bagging_predict_proba b X = Ok P /\ mean_of Ps P r c.
  Proof.
    intros b X [|P0 Ps] r c H1 N HL HD HF HM; [congruence|]. inversion HF; subst.
    unfold bagging_predict_proba. rewrite (HM 0 P0 eq_refl). cbn [bind].
    replace (length (b_members b) - 1) with (length Ps) by (rewrite <- HL; simpl; lia).
    rewrite (bag_loop b X r c Ps 1 P0) by (auto; intros i P Hi; apply (HM (S i)); auto). cbn [bind].
    rewrite apply_2d_ll. rewrite <- HL.
    destruct (fold_rect Ps P0 r c H1 HF) as [RS CS].
    destruct (mapM_rect_total (fun x : A => div x (ofnat (length (P0 :: Ps)))) (fold_left (zip_with (zip_with add)) Ps P0) HD) as [N0 E].
    exists N0. split; auto. destruct (mapM_rect _ _ _ r c RS E) as [RN CN]. split; auto.
    intros i j Hi Hj. destruct (CS i j Hi Hj) as (v0 & vs & HC & HS).
    destruct (CN _ _ _ HS) as (w & Hw & Ew). exists (v0 :: vs), w. auto.
  Qed.

  (** Member inputs. *)
  Lemma member_forest : forall (b : bagging A L) X k p, b_feats b = None -> nth_error (b_members b) k = Some p ->
    member_proba b X k = p X.
  Proof.
    intros b X k p HF Hp. unfold member_proba, get_feats. rewrite HF. unfold lnth. rewrite Hp. reflexivity.
  Qed.

  Lemma columns_slice : forall (idx : list nat) (M M' : list (list A)), columns idx M M' ->
    mapM (fun a => mapM (item_get a) (map Z.of_nat idx)) (map Ls M) = Ok M'.
  Proof.
    intros idx M M' H. rewrite mapM_map. apply mapM_Forall2. eapply Forall2_imp; [|exact H].
    intros row row' F. rewrite mapM_map. apply mapM_Forall2. eapply Forall2_imp; [|exact F].
    intros j v E. cbn [item_get]. rewrite lget_nat. apply lnth_ok; auto.
  Qed.

  Lemma member_columns : forall (b : bagging A L) fs M k p idx M', b_feats b = Some (map (map Z.of_nat) fs) ->
    nth_error (b_members b) k = Some p -> nth_error fs k = Some idx -> columns idx M M' ->
    member_proba b (ll M) k = p (ll M').
  Proof.
    intros b fs M k p idx M' HF Hp Hi HC. unfold member_proba, get_feats. rewrite HF. unfold lnth at 1. rewrite Hp.
    cbn [bind]. unfold lnth. rewrite nth_error_map', Hi. cbn [option_map bind]. unfold feat_slice, ll. cbn [items bind].
    rewrite (columns_slice idx M M' HC). reflexivity.
  Qed.

  (** predict *)
  Lemma bagging_predict_ok : ord_ok A -> forall (b : bagging A L) X out,
    bagging_predict b X = Ok out <-> exists P, bagging_predict_proba b X = Ok P /\
      Forall2 (fun p y => exists i, best p i /\ nth_error (b_classes b) i = Some y) P out.
  Proof.
    intros OK b X out. unfold bagging_predict. split.
    - intro H. inv_bind H. inv_bind H. exists a. split; auto. apply mapM_Forall2 in E0, H.
      clear E. revert out H. induction E0 as [|p i P is E F IH]; intros out H; inversion H; subst; constructor; auto.
      exists i. split; [apply (argmax_iff OK); auto|apply lnth_ok; auto].
    - intros (P & -> & H). cbn [bind].
      assert (Q : exists is, mapM argmax P = Ok is /\ mapM (lnth (b_classes b)) is = Ok out).
      { induction H as [|p y P out (i & B & Y) H (is & E1 & E2)]; [exists []; auto|].
        exists (i :: is). simpl. apply (argmax_iff OK) in B. rewrite B, E1. apply lnth_ok in Y. rewrite Y, E2. auto. }
      destruct Q as (is & -> & Q). auto.
  Qed.

  (** Sums of numbers in [0,1] stay below their count. *)
  Lemma sum1_bound : unit_ok A -> forall (vs : list A) v0, Forall (fun x => leb zero x = true /\ leb x one = true) (v0 :: vs) ->
    (Z.of_nat (length (v0 :: vs)) <= 2 ^ 53)%Z ->
    leb zero (fold_left add vs v0) = true /\ leb (fold_left add vs v0) (ofnat (length (v0 :: vs))) = true.
  Proof.
    intros U vs v0 HF HB.
    assert (OK : ord_ok A) by apply U.
    assert (G : forall (vs : list A) (acc : A) n, leb zero acc = true -> leb acc (ofnat n) = true ->
       Forall (fun x => leb zero x = true /\ leb x one = true) vs -> (Z.of_nat (n + length vs) <= 2 ^ 53)%Z ->
       leb zero (fold_left add vs acc) = true /\ leb (fold_left add vs acc) (ofnat (n + length vs)) = true).
    { clear vs v0 HF HB. induction vs as [|x vs IH]; intros acc n H0 Hn HF HB; simpl.
      - rewrite Nat.add_0_r. auto.
      - inversion HF as [|? ? [X0 X1] HF']; subst. simpl in HB.
        replace (n + S (length vs)) with (S n + length vs) by lia. apply IH; auto.
        + apply (add_ge U); auto.
        + eapply (leb_trans OK).
          * apply (u_add_mono _ U _ (ofnat n) _ one); auto.
            -- apply (u_add_pos_nan _ U); auto.
            -- apply (u_add_pos_nan _ U); [apply (u_nat _ U); lia|]. apply (ltb_leb OK). apply (a_one _ U).
          * apply (eqb_leb OK). apply (u_nat_succ _ U). lia.
        + lia. }
    inversion HF as [|? ? [X0 X1] HF']; subst. apply (G vs v0 1); auto.
  Qed.

  Lemma mean_unit : unit_ok A -> forall Ps P r c, Ps <> [] -> (Z.of_nat (length Ps) <= 2 ^ 53)%Z ->
    mean_of (A:=A) Ps P r c ->
    Forall (Forall (Forall (fun x => leb zero x = true /\ leb x one = true))) Ps ->
    Forall (Forall (fun x => leb zero x = true /\ leb x one = true)) P.
  Proof.
    intros U Ps P r c N HB [RP HM] HF. apply Forall_forall. intros row Hrow. apply Forall_forall. intros q Hq.
    apply In_nth_error in Hrow, Hq. destruct Hrow as [i Hi], Hq as [j Hj].
    assert (Hir : i < r) by (destruct RP as [<- _]; apply nth_error_Some; congruence).
    assert (Hjc : j < c).
    { erewrite <- (rect_row P r c row RP); [apply nth_error_Some; congruence|]. eapply nth_error_In; eauto. }
    destruct (HM i j Hir Hjc) as (vs & q' & HC & Hq' & HD).
    unfold cell in Hq'. rewrite Hi, Hj in Hq'. inversion Hq'; subst q'.
    assert (HV : Forall (fun x => leb zero x = true /\ leb x one = true) vs).
    { clear - HC HF. induction HC as [|P v Ps vs Hv HC IH]; constructor; inversion HF; subst; auto.
      unfold cell in Hv. destruct (nth_error P i) eqn:E; [|discriminate].
      rewrite Forall_forall in H1. specialize (H1 _ (nth_error_In _ _ E)). rewrite Forall_forall in H1.
      apply H1. eapply nth_error_In; eauto. }
    assert (Ln : length vs = length Ps) by (symmetry; eapply Forall2_len; exact HC).
    destruct vs as [|v0 vs]; [destruct Ps; [congruence|discriminate]|]. simpl in HD.
    rewrite <- Ln in HB, HD. destruct (sum1_bound U vs v0 HV HB) as [S0 S1].
    destruct (u_nat _ U (length (v0 :: vs)) HB) as (Fn & _ & Pn).
    destruct (u_div_unit _ U _ _ S0 S1 Fn (Pn ltac:(simpl; lia))) as (q' & E & B). rewrite HD in E. inversion E; subst. auto.
  Qed.
End Bag.

(** Exact arithmetic: the mean of distributions is a distribution. *)
From Verif Require Import Model.XR Spec.Reals Proofs.RealLib.
Local Open Scope R_scope.

Lemma cell_finss : forall Q i j, cell (finss Q) i j = option_map (fun r => XFin r : XR) (cell Q i j).
Proof.
  intros Q i j. unfold cell, finss. rewrite nth_error_map'. destruct (nth_error Q i); simpl; auto.
  unfold fins. rewrite nth_error_map'. auto.
Qed.
Lemma rect_finss : forall Q r c, rect Q r c <-> rect (finss Q) r c.
Proof.
  intros Q r c. unfold rect, finss. rewrite map_length, Forall_map. 
  split; intros [H1 H2]; split; auto; eapply Forall_impl; try exact H2; intros a Ha; simpl in *; rewrite fins_length in *; auto.
Qed.
Lemma cells_finss : forall Qs i j (vs : list XR), cells (A:=XR) (map finss Qs) i j vs ->
  exists rs, vs = fins rs /\ Forall2 (fun Q r => cell Q i j = Some r) Qs rs.
Proof.
  intros Qs i j; induction Qs as [|Q Qs IH]; intros vs H; inversion H; subst.
  - exists []; split; constructor.
  - destruct (IH _ H4) as (rs & -> & F). rewrite cell_finss in H2. destruct (cell Q i j) as [r|] eqn:E; [|discriminate].
    simpl in H2. inversion H2; subst. exists (r :: rs). split; auto.
Qed.
Lemma sum1_fins : forall rs, rs <> [] -> sum1 (A:=XR) (fins rs) = XFin (Rsum rs).
Proof. intros [|r rs] N; [congruence|]. simpl. fold (fins rs). apply (fold_fins rs r). Qed.

(** The mean matrix in the reals. *)
Definition Rmeans (Qs : list (list (list R))) (r c : nat) : list (list R) :=
  map (fun i => map (fun j => Rmean (map (fun Q => nth j (nth i Q []) 0) Qs)) (seq 0 c)) (seq 0 r).

Lemma cell_nth : forall (Q : list (list R)) i j v, cell Q i j = Some v -> nth j (nth i Q []) 0 = v.
Proof.
  intros Q i j v. unfold cell. destruct (nth_error Q i) as [row|] eqn:E; [|discriminate]. intro H.
  rewrite (nth_error_nth _ _ _ E). apply nth_error_nth; auto.
Qed.

Lemma mean_exact : forall Qs P r c, Qs <> [] -> mean_of (A:=XR) (map finss Qs) P r c -> P = finss (Rmeans Qs r c).
Proof.
  intros Qs P r c N [RP HM]. 
  assert (RQ : rect (Rmeans Qs r c) r c).
  { unfold Rmeans. split; [rewrite map_length, seq_length; auto|]. apply Forall_map. apply Forall_forall. intros i _.
    rewrite map_length, seq_length. auto. }
  apply (rect_ext _ _ r c); auto; [apply rect_finss; auto|].
  intros i j Hi Hj. destruct (HM i j Hi Hj) as (vs & q & HC & Hq & HD).
  destruct (cells_finss _ _ _ _ HC) as (rs & -> & HR). rewrite Hq, cell_finss.
  assert (Ln : length rs = length Qs) by (symmetry; eapply Forall2_len; exact HR).
  assert (NR : rs <> []) by (destruct Qs; [congruence|destruct rs; discriminate]).
  rewrite sum1_fins, x_ofnat, map_length in HD by auto.
  rewrite x_div_fin in HD.
  2:{ apply not_0_INR. destruct Qs; [congruence|discriminate]. }
  inversion HD; subst q. unfold Rmeans, cell. rewrite nth_error_map', nth_error_seq.
  destruct (Nat.ltb_spec i r); [|lia]. simpl. rewrite nth_error_map', nth_error_seq.
  destruct (Nat.ltb_spec j c); [|lia]. simpl. unfold Rmean. rewrite map_length. do 3 f_equal.
  clear - HR. induction HR as [|Q x Qs rs E HR IH]; simpl; auto. rewrite (cell_nth _ _ _ _ E), IH. auto.
Qed.

Lemma Rmeans_dist : forall Qs r c, Qs <> [] -> Forall (fun Q => rect Q r c /\ Forall distribution Q) Qs ->
  Forall distribution (Rmeans Qs r c).
Proof.
  intros Qs r c N HF. unfold Rmeans. apply Forall_map. apply Forall_forall. intros i Hi. apply in_seq in Hi.
  assert (Pn : 0 < INR (length Qs)) by (apply lt_0_INR; destruct Qs; [congruence|simpl; lia]).
  rewrite Forall_forall in HF.
  assert (HD : forall Q, In Q Qs -> distribution (nth i Q []) /\ length (nth i Q []) = c).
  { intros Q HQ. destruct (HF Q HQ) as [[LQ RQ] DQ]. rewrite Forall_forall in RQ, DQ.
    assert (In (nth i Q []) Q) by (apply nth_In; rewrite LQ; lia). split; auto. }
  split.
  - apply Forall_map. apply Forall_forall. intros j Hj. apply in_seq in Hj. unfold Rmean. rewrite map_length.
    set (vs := map (fun Q => nth j (nth i Q []) 0) Qs).
    assert (HV : Forall (fun v => 0 <= v <= 1) vs).
    { apply Forall_map. apply Forall_forall. intros Q HQ. destruct (HD Q HQ) as [[D _] L]. rewrite Forall_forall in D.
      apply D. apply nth_In. lia. }
    assert (B : 0 <= Rsum vs <= INR (length vs)).
    { clear - HV. induction HV as [|v vs Hv HV IH]; [simpl; lra|]. simpl length. rewrite S_INR. simpl. lra. }
    unfold vs in B at 3. rewrite map_length in B. split.
    + apply Rmult_le_pos; [lra|]. left. apply Rinv_0_lt_compat; auto.
    + apply Rmult_le_reg_r with (INR (length Qs)); auto. unfold Rdiv. rewrite Rmult_assoc, Rinv_l by lra. lra.
  - unfold Rmean.
    rewrite (map_ext _ (fun j => Rsum (map (fun Q => nth j (nth i Q []) 0) Qs) / INR (length Qs)))
      by (intro; rewrite map_length; auto).
    rewrite <- (map_map (fun j => Rsum (map (fun Q => nth j (nth i Q []) 0) Qs)) (fun x => x / INR (length Qs))).
    rewrite Rsum_div. rewrite (Rsum_swap (fun j Q => nth j (nth i Q []) 0)).
    rewrite (map_ext_in _ (fun _ => 1)).
    + rewrite Rsum_const. unfold Rdiv. rewrite Rmult_1_l. apply Rinv_r. lra.
    + intros Q HQ. destruct (HD Q HQ) as [[_ D] <-]. rewrite map_nth_seq. auto.
Qed.
