(** Widths of probability rows, and predictions that exist. *)
From Coq Require Import String Lia.
From Verif Require Import Model.Py Model.Arith Model.Utils Model.Base Model.Hash Model.DictVec
  Model.Text Model.Tree Model.Ensemble Model.Xgb Model.Linear Model.NaiveBayes
  Model.Dummy Model.Preprocessing Model.Encoders Model.Impute Model.Pipeline Model.Est.
From Verif Require Import Spec.Matrix Spec.Pipeline Spec.Est Spec.Api Spec.Shapes Proofs.Lib Proofs.Laws Proofs.Argmax Proofs.Pipeline Proofs.Est Proofs.Api Proofs.ApiRows.

Section Shapes.
  Context {A : arith} {L V : Type} (veq : V -> V -> bool) (vnum : A -> V) (U : textlib).
  Notation ob := (obj_of veq vnum U).
  Notation wide := (of_width (A:=A)).

  Lemma mapM_wide : forall S (f : S -> res (list A)) k l r, (forall x y, In x l -> f x = Ok y -> length y = k) -> mapM f l = Ok r -> wide k r.
  Proof.
    intros S f k l r H E. apply mapM_Forall2 in E. unfold of_width. induction E as [|x y l r E1 E2 IH]; constructor.
    - apply (H x); [left; auto|auto].
    - apply IH. intros a b Ha. apply H. right; auto.
  Qed.
  Lemma mapM2_wide : forall (f : A -> res A) k P Q, wide k P -> mapM (mapM f) P = Ok Q -> wide k Q.
  Proof.
    intros f k P Q H E. eapply mapM_wide; [|exact E]. intros x y Hx Ey. unfold of_width in H. rewrite Forall_forall in H.
    rewrite (mapM_length _ _ _ Ey). auto.
  Qed.
  Lemma lget_In : forall T (l : list T) i x, lget l i = Ok x -> In x l.
  Proof.
    intros T l i x E. unfold lget in E. repeat match type of E with context [if ?b then _ else _] => destruct b end; try discriminate; apply lnth_ok, nth_error_In in E; exact E.
  Qed.
  Lemma apply_ll : forall B (f : A -> res B) M, apply_2d (ll M) f = mapM (mapM f) M.
  Proof. intros B f M. unfold apply_2d, ll. cbn [issparse items bind]. rewrite mapM_map. reflexivity. Qed.
  Lemma operate_wide : forall k f M N P, wide k M -> wide k N -> operate_2d (ll M) (ll N) f = Ok P -> wide k P.
  Proof.
    intros k f M N P HM HN E. unfold operate_2d in E. cbn [issparse ll orb] in E. bx E sX E1. bx E sY E2. bx E u E3. cbn [items bind] in E.
    eapply mapM_wide; [|exact E]. intros i y _ Ey. bx Ey x Ex. bx Ey y0 Ey0. bx Ey a Ea. bx Ey b Eb. injection Ey as <-.
    apply lnth_ok in Ex. apply lnth_ok in Ey0. apply nth_error_In, in_map_iff in Ex. apply nth_error_In, in_map_iff in Ey0.
    destruct Ex as (r1 & <- & I1). destruct Ey0 as (r2 & <- & I2). injection Ea as <-. injection Eb as <-.
    unfold of_width in *. rewrite Forall_forall in HM, HN. apply zip_len; auto.
  Qed.
  Lemma wide_transpose : forall J P, J <> [] -> transpose (ll J) = Ok P -> wide (length J) P.
  Proof.
    intros J P N E. unfold transpose in E. cbn [issparse ll items bind] in E. bx E M EM. injection E as <-.
    assert (M = J) as ->. { rewrite mapM_map in EM. apply mapM_Forall2 in EM. clear N. induction EM as [|x y l r E1 E2 IH]; auto. injection E1 as ->. congruence. }
    apply zipstar_cols; auto.
  Qed.

  Definition width_ok (e : est A L V) (k : nat) : Prop :=
    (forall f X P, o_proba (ob e) = Some f \/ o_log_proba (ob e) = Some f -> fst (f X) = Ok P -> wide k P) /\
    (forall cl, o_classes (ob e) = Some cl -> length cl = k).
  Lemma width_cl : forall e p (pp lp : option (arr A -> res (list (list A)))) (cl : list L) k,
    ob e = classifier p pp lp cl -> length cl = k ->
    (forall g X P, pp = Some g -> g X = Ok P -> wide k P) -> (forall g X P, lp = Some g -> g X = Ok P -> wide k P) -> width_ok e k.
  Proof.
    intros e p pp lp cl k E HL HP HQ. unfold width_ok. rewrite E. cbn [classifier o_proba o_log_proba o_classes]. split; [|intros cl' Q; injection Q as <-; auto].
    intros f X P [F|F] EP; [destruct pp as [g|]; [|discriminate]|destruct lp as [g|]; [|discriminate]]; injection F as <-; cbn [fst] in EP; eauto.
  Qed.
  (** [lp] the logarithms of [pp] *)
  Lemma width_cl_log : forall e p (g h : arr A -> res (list (list A))) (cl : list L) k,
    ob e = classifier p (Some g) (Some h) cl -> length cl = k ->
    (forall X P, g X = Ok P -> wide k P) -> (forall X, h X = (P <- g X ;; mapM (mapM safe_log) P)) -> width_ok e k.
  Proof.
    intros e p g h cl k E HL HP HQ. eapply width_cl; eauto.
    - intros g' X P Q. injection Q as <-. apply HP.
    - intros g' X P Q. injection Q as <-. rewrite HQ. intro F. bx F P0 EP0. eapply mapM2_wide; eauto.
  Qed.

  Lemma expit_pair : forall l P, mapM (fun x : A => a <- expit x ;; Ok [sub one a; a]) l = Ok P -> wide 2 P.
  Proof. intros l P E. eapply mapM_wide; [|exact E]. intros x y _ Ey. bx Ey a Ea. injection Ey as <-. reflexivity. Qed.
  Lemma scores_wide : forall (c : linear A L) b l M, l_intercept c = Some b -> mapM (row_scores c) l = Ok M -> wide (Nat.min (length (l_coef c)) (length b)) M.
  Proof.
    intros c b l M Eb E. eapply mapM_wide; [|exact E]. intros x y _ Ey. unfold row_scores in Ey. bx Ey d Ed. rewrite Eb in Ey. cbn [getattr bind] in Ey. injection Ey as <-.
    unfold dot in Ed. apply mapM_length in Ed. rewrite <- Ed. clear. revert b. induction d as [|x d IH]; intros [|y b]; cbn [zip_with length Nat.min]; auto.
  Qed.
  Lemma dec_cases : forall (c : linear A L) b X s, l_intercept c = Some b -> decision_function c X = Ok s ->
    match s with
    | D1 l => Nat.min (length (l_coef c)) (length b) = 1
    | D2 M => wide (Nat.min (length (l_coef c)) (length b)) M /\ (M = [] \/ Nat.min (length (l_coef c)) (length b) <> 1)
    end.
  Proof.
    intros c b X s Eb E. unfold decision_function in E. bx E X' E1. bx E nf E2. bx E w E3. bx E u E4. bx E l E5. bx E sc E6. bx E ws E7.
    assert (W := scores_wide c b l sc Eb E6). unfold shape1, shape in E7. cbn [ll items bind] in E7.
    destruct sc as [|r sc]; [discriminate|]. cbn [map] in E7. injection E7 as <-. inversion W as [|r' sc' Hr HW]; subst.
    destruct (Z.eq_dec (Z.of_nat (length r)) 1) as [Q|Q].
    - rewrite Q in E. bx E l0 E0. injection E as <-. lia.
    - assert (s = D2 (r :: sc)) as ->. { destruct (Z.of_nat (length r)) as [|[p|p|]|]; congruence. }
      split; [constructor; auto|]. right. lia.
  Qed.
  Lemma lr_wide : forall (c : linear A L) b X P k, l_intercept c = Some b ->
    (Nat.min (length (l_coef c)) (length b) = 1 -> k = 2) -> (Nat.min (length (l_coef c)) (length b) <> 1 -> k = Nat.min (length (l_coef c)) (length b)) ->
    predict_proba_lr c X = Ok P -> wide k P.
  Proof.
    intros c b X P k Eb H1 H2 E. unfold predict_proba_lr in E. bx E s Es. apply (dec_cases c b X s Eb) in Es. destruct s as [l|M].
    - rewrite H1 by auto. apply expit_pair with l; auto.
    - bx E Q EQ. destruct Es as [W [->|N]]; [injection EQ as <-; injection E as <-; constructor|]. rewrite H2 by auto.
      assert (W' := mapM2_wide _ _ _ _ W EQ). eapply mapM_wide; [|exact E]. intros x y Hx Ey. unfold normalise in Ey. apply mapM_length in Ey. unfold of_width in W'. rewrite Forall_forall in W'. rewrite Ey. auto.
  Qed.
  Lemma sfmax_len : forall (l r : list A), sfmax l = Ok r -> length r = length l.
  Proof. intros l r E. unfold sfmax in E. bx E es Ees. apply mapM_length in E. apply mapM_length in Ees. congruence. Qed.
  Lemma logistic_wide : forall (c : linear A L) b X P k, l_intercept c = Some b ->
    (Nat.min (length (l_coef c)) (length b) = 1 -> k = 2) -> (Nat.min (length (l_coef c)) (length b) <> 1 -> k = Nat.min (length (l_coef c)) (length b)) ->
    logistic_predict_proba c X = Ok P -> wide k P.
  Proof.
    intros c b X P k Eb H1 H2 E. unfold logistic_predict_proba in E. bx E o Eo. destruct o; [eapply lr_wide; eauto|].
    bx E s Es. apply (dec_cases c b X s Eb) in Es. destruct s as [l|M].
    - rewrite H1 by auto. eapply mapM_wide; [|exact E]. intros x y _ Ey. apply sfmax_len in Ey. exact Ey.
    - destruct Es as [W [->|N]]; [injection E as <-; constructor|]. rewrite H2 by auto.
      eapply mapM_wide; [|exact E]. intros x y Hx Ey. apply sfmax_len in Ey. unfold of_width in W. rewrite Forall_forall in W. rewrite Ey. auto.
  Qed.
  Lemma linear_width : forall kd (c : linear A L) b k, l_intercept c = Some b -> length (l_classes c) = k ->
    (Nat.min (length (l_coef c)) (length b) = 1 -> k = 2) -> (Nat.min (length (l_coef c)) (length b) <> 1 -> k = Nat.min (length (l_coef c)) (length b)) ->
    width_ok (ELinear kd c) k.
  Proof.
    intros kd c b k Eb HL H1 H2. destruct kd.
    - eapply width_cl_log; [reflexivity|auto| |].
      + intros X P. apply (logistic_wide c b); auto.
      + reflexivity.
    - assert (HI : forall X P, sgd_predict_proba_inner c X = Ok P -> wide k P).
      { intros X P E. unfold sgd_predict_proba_inner in E. bx E s Es. destruct (str_eqb s (lit "log")); [|discriminate]. eapply lr_wide; eauto. }
      eapply width_cl; [reflexivity|auto| |]; intros g X P Q; destruct (is_ok (check_proba c)); try discriminate; injection Q as <-.
      + apply HI.
      + unfold sgd_predict_log_proba, sgd_predict_proba. intro E. bx E u1 Eu1. bx E P0 E0. bx E0 u2 Eu2. eapply mapM2_wide; [apply (HI X)|]; eauto.
    - eapply width_cl; [reflexivity|auto|discriminate|discriminate].
  Qed.

  Lemma binary_wide : forall (f : A -> res A) raw P, binary_proba f raw = Ok P -> wide 2 P.
  Proof. intros f raw P E. unfold binary_proba in E. bx E w Ew. bx E p Ep. bx E p1 Ep1. apply wide_transpose in E; [exact E|discriminate]. Qed.
  Lemma multi_wide : forall k (raw : list (list A)) P, raw_to_proba (LMulti k) raw = Ok P -> wide k P.
  Proof.
    intros k raw P E. cbn [raw_to_proba] in E. bx E ex0 E1. bx E sums E2. bx E lse E3. eapply mapM_wide; [|exact E].
    intros i y _ Ey. apply mapM_length in Ey. rewrite Ey. unfold range. apply seq_length.
  Qed.
  Lemma bagging_wide : forall (b : bagging A L) k, (forall p X P, In p (b_members b) -> p X = Ok P -> wide k P) ->
    forall X P, bagging_predict_proba b X = Ok P -> wide k P.
  Proof.
    intros b k H X P E. unfold bagging_predict_proba in E. bx E p0 E0. bx E p E1. rewrite apply_ll in E.
    assert (HM : forall i Q, member_proba b X i = Ok Q -> wide k Q).
    { intros i Q EQ. unfold member_proba in EQ. bx EQ q Eq0. bx EQ fs Ef. bx EQ X' EX. apply (H q X'); auto. apply lnth_ok, nth_error_In in Eq0. auto. }
    assert (W0 := HM _ _ E0). assert (W : wide k p).
    { clear E0 E. revert p0 W0 E1. induction (seq 1 (length (b_members b) - 1)) as [|i l IH]; intros p0 W0 E1; cbn [foldM] in E1; [injection E1 as <-; auto|].
      bx E1 p1 Ep1. bx Ep1 pk Epi. apply (IH p1); auto. eapply operate_wide; [exact W0|apply (HM i); exact Epi|exact Ep1]. }
    eapply mapM2_wide; eauto.
  Qed.

  Lemma jll_wide : forall (m : nb A L) k X J, k_classes (V:=V) (ENb m) k -> jll m X = Ok J -> wide k J.
  Proof.
    intros m k X J H E. inversion H as [| | | | | | | |g k' HL|d k' HL|d k' HL HP| |]; subst; unfold jll in E.
    - destruct (g_classes g) as [|c0 cl] eqn:Ec.
      + unfold gaussian_jll in E. rewrite Ec in E. cbn in E. injection E as <-. constructor.
      + destruct (items X) as [l|e]; [|bx E p Ep; bx E q Eq0; bx E sg Esg; bx E n En; discriminate].
        unfold gaussian_jll in E. bx E J0 E0. apply mapM_length in E0. unfold range in E0. rewrite seq_length, Ec in E0. rewrite <- E0. apply wide_transpose; auto. destruct J0; [discriminate|discriminate].
    - bx E l El. eapply mapM_wide; [|exact E]. intros x y _ Ey. unfold multinomial_row in Ey. bx Ey p Ep. apply mapM_length in Ey. unfold range in Ey. rewrite seq_length in Ey. auto.
    - bx E l El. unfold complement_jll in E. bx E J0 E0.
      assert (W : wide (length (d_log_prob d)) J0). { eapply mapM_wide; [|exact E0]. intros x y _ Ey. unfold dot in Ey. apply mapM_length in Ey. auto. }
      destruct (Nat.eqb_spec (length (d_classes d)) 1) as [Q|Q].
      + eapply mapM_wide; [|exact E]. intros x y _ Ey. bx Ey a Ea. bx Ey b Eb. injection Ey as <-. cbn. congruence.
      + injection E as <-. rewrite <- HP. exact W.
  Qed.
  Lemma nb_width : forall (m : nb A L) k, k_classes (V:=V) (ENb m) k -> width_ok (ENb m) k.
  Proof.
    intros m k H.
    assert (HL : forall X P, nb_predict_log_proba m X = Ok P -> wide k P).
    { intros X P E. unfold nb_predict_log_proba in E. bx E X' E1. bx E J EJ. bx E lp El. injection E as <-. apply (jll_wide m k X' J H) in EJ.
      clear El. revert lp. induction EJ as [|r J Hr HJ IH]; intros [|s lp]; cbn [zip_with]; constructor; auto; [rewrite map_length; auto|apply IH]. }
    eapply width_cl; [reflexivity| | |].
    - inversion H; subst; reflexivity || auto.
    - intros g X P Q. injection Q as <-. unfold nb_predict_proba. intro E. bx E P0 E0. eapply mapM2_wide; [apply (HL X)|]; eauto.
    - intros g X P Q. injection Q as <-. apply HL.
  Qed.

  Lemma width_all : forall (e : est A L V) k, k_classes e k -> width_ok e k.
  Proof.
    fix IH 3. intros e k H. destruct H as [t k HL HV|ms feats cl k HL HM|ts init lr nf cl k HL|ts init lr nf ls cl HL HS|g k HL HO HN|g HL HO|kd c b HL HC HB HB1|kd c b k NK HL HC HB HB1|g k HL|d k HL|d k HL HP|d k HL|pre nm e k H].
    - eapply width_cl_log; [reflexivity|auto| |reflexivity]. intros X P E. unfold tree_predict_proba in E. bx E lv El. eapply mapM_wide; [|exact E].
      intros x y _ Ey. unfold leaf_proba in Ey. bx Ey v Ev. apply mapM_length in Ey. rewrite Ey. apply lget_In in Ev. rewrite Forall_forall in HV. auto.
    - set (b := {| b_members := map (fun m => proba_of (ob m)) ms; b_feats := feats; b_classes := cl |}).
      assert (HB : forall X P, bagging_predict_proba b X = Ok P -> wide k P).
      { apply bagging_wide. intros p X P Hp E. cbn [b b_members] in Hp. apply in_map_iff in Hp. destruct Hp as (m & <- & Hm). unfold proba_of in E.
        destruct (o_proba (ob m)) as [f|] eqn:Ef; [|discriminate]. apply (proj1 (IH m k (HM m Hm)) f (DNum X) P); auto. }
      eapply width_cl_log; [reflexivity|auto|exact HB|]. intro X. unfold bagging_predict_log_proba. apply bind_ext. intros P _. apply apply_ll.
    - eapply width_cl_log; [reflexivity|auto| |].
      + intros X P E. unfold gb_predict_proba in E. bx E raw Er. cbn [gb_loss] in E. apply multi_wide in E. exact E.
      + intro X. unfold gb_predict_log_proba. apply bind_ext. intros P _. apply apply_ll.
    - eapply width_cl_log; [reflexivity|auto| |].
      + intros X P E. unfold gb_predict_proba in E. bx E raw Er. cbn [gb_loss] in E. destruct HS as [->| ->]; cbn [raw_to_proba] in E; eapply binary_wide; exact E.
      + intro X. unfold gb_predict_log_proba. apply bind_ext. intros P _. apply apply_ll.
    - eapply width_cl; [reflexivity|auto| |discriminate]. intros h X P Q. injection Q as <-. unfold xgb_predict_proba. rewrite HO. intro E. bx E X' EX.
      change (str_eqb (lit "multi:softprob") (lit "multi:softprob")) with true in E. cbv iota in E. bx E pr Epr. bx E n En. eapply mapM_wide; [|exact E]. intros x y _ Ey. bx Ey r Er. apply sfmax_len in Ey. apply mapM_length in Er.
      rewrite Ey, Er, HN. unfold zrange. rewrite map_length, seq_length. lia.
    - eapply width_cl; [reflexivity|auto| |discriminate]. intros h X P Q. injection Q as <-. unfold xgb_predict_proba. rewrite HO. intro E. bx E X' EX.
      change (str_eqb (lit "binary:logistic") (lit "multi:softprob")) with false in E. cbv iota in E. change (str_eqb (lit "binary:logistic") (lit "binary:logistic")) with true in E. cbv iota in E.
      bx E pr Epr. bx E out Eo. injection E as <-. unfold of_width. rewrite Forall_map. apply Forall_forall. reflexivity.
    - apply (linear_width kd c b); auto; rewrite HC; intros; lia.
    - apply (linear_width kd c b); auto; rewrite HC; intros; lia.
    - apply nb_width. constructor; auto.
    - apply nb_width. constructor; auto.
    - apply nb_width. constructor; auto.
    - assert (HP : forall X P, dummy_predict_proba d X = Ok P -> wide k P).
      { intros X P E. unfold dummy_predict_proba in E. bx E n En. injection E as <-. unfold rep. apply Forall_forall. intros r Hr. apply repeat_spec in Hr. congruence. }
      split; [|discriminate]. intros f X P [F|F] E; cbn [obj_of o_proba o_log_proba] in F; injection F as <-; cbn [fst] in E; [apply (HP _ _ E)|].
      unfold dummy_predict_log_proba in E. bx E P0 E0. rewrite apply_ll in E. eapply mapM2_wide; [apply (HP _ _ E0)|exact E].
    - specialize (IH e k H). destruct IH as [I1 I2].
      destruct (ends_follow veq vnum U (EPipeline (pre ++ [(nm, e)])) e (ends_last pre nm e e (ends_here e))) as (os & H0 & _ & H2 & H3).
      split; [|intros cl Ec; apply I2; rewrite <- H0; auto]. intros f X P [F|F] E.
      + rewrite F in H2. destruct (o_proba (ob e)) as [g|] eqn:Eg; [|contradiction]. apply H2 in E. destruct E as (Z & _ & E). apply (I1 g Z P); auto.
      + rewrite F in H3. destruct (o_log_proba (ob e)) as [g|] eqn:Eg; [|contradiction]. apply H3 in E. destruct E as (Z & _ & E). apply (I1 g Z P); auto.
  Qed.

  (** C74 *)
  Context (OK : ord_ok A).
  Lemma mapM_exists : forall S T (f : S -> res T) l, (forall x, In x l -> exists y, f x = Ok y) -> exists r, mapM f l = Ok r.
  Proof.
    intros S T f l H. induction l as [|x l IH]; [exists []; auto|]. destruct (H x (or_introl eq_refl)) as (y & Ey). destruct IH as (r & Er); [intros; apply H; right; auto|].
    exists (y :: r). cbn [mapM]. rewrite Ey, Er. reflexivity.
  Qed.
  Lemma pick_exists : forall k (cl : list L) (a : list A), 1 <= k -> length cl = k -> length a = k -> exists y, (i <- argmax a ;; lnth cl i) = Ok y.
  Proof.
    intros k cl a Hk HL HA. destruct (argmax_total OK a) as (i & Ei); [destruct a; [cbn in HA; lia|discriminate]|]. rewrite Ei. cbn [bind].
    apply (argmax_iff OK) in Ei. apply best_lt in Ei. unfold lnth. destruct (nth_error cl i) as [y|] eqn:E; [eauto|]. apply nth_error_None in E. lia.
  Qed.
  Lemma picks_exist : forall k (cl : list L) (P : list (list A)), 1 <= k -> length cl = k -> wide k P -> exists r, mapM (fun a => i <- argmax a ;; lnth cl i) P = Ok r.
  Proof. intros k cl P Hk HL W. apply mapM_exists. intros a Ha. apply (pick_exists k); auto. unfold of_width in W. rewrite Forall_forall in W. auto. Qed.
  Lemma class2 : forall (cl : list L) (b : bool), length cl = 2 -> exists y, lnth cl (if b then 1 else 0) = Ok y.
  Proof. intros [|a [|a' [|? ?]]] b H; try discriminate. destruct b; cbn; eauto. Qed.

  Definition has_label (e : est A L V) : Prop := forall f X P, o_proba (ob e) = Some f -> fst (f X) = Ok P ->
    exists g p, o_predict (ob e) = Some g /\ fst (g X) = Ok p.
  Lemma label_cl : forall e p (pp : arr A -> res (list (list A))) lp (cl : list L), ob e = classifier p (Some pp) lp cl ->
    (forall X P, pp X = Ok P -> exists r, p X = Ok r) -> has_label e.
  Proof.
    intros e p pp lp cl E H f X P F EP. rewrite E in *. cbn [classifier o_proba o_predict] in *. injection F as <-. cbn [fst] in EP. destruct (H _ _ EP) as (r & Er).
    eexists. exists (PLab r). split; [reflexivity|]. cbn [fst]. rewrite Er. reflexivity.
  Qed.
  Lemma linear_labels : forall (c : linear A L) b k X s, l_intercept c = Some b -> 1 <= k -> length (l_classes c) = k ->
    (Nat.min (length (l_coef c)) (length b) = 1 -> k = 2) -> (Nat.min (length (l_coef c)) (length b) <> 1 -> k = Nat.min (length (l_coef c)) (length b)) ->
    decision_function c X = Ok s -> exists r, linear_predict c X = Ok r.
  Proof.
    intros c b k X s Eb Hk HL H1 H2 Es. unfold linear_predict. rewrite Es. cbn [bind]. apply (dec_cases c b X s Eb) in Es. destruct s as [l|M].
    - apply mapM_exists. intros x _. apply class2. rewrite HL. auto.
    - destruct Es as [W [->|N]]; [exists []; reflexivity|]. rewrite <- H2 in W by auto. apply (picks_exist k); auto.
  Qed.
  Lemma lr_dec : forall (c : linear A L) X P, predict_proba_lr c X = Ok P -> exists s, decision_function c X = Ok s.
  Proof. intros c X P E. unfold predict_proba_lr in E. bx E s Es. eauto. Qed.
  Lemma linear_has_label : forall kd (c : linear A L) b k, l_intercept c = Some b -> 1 <= k -> length (l_classes c) = k ->
    (Nat.min (length (l_coef c)) (length b) = 1 -> k = 2) -> (Nat.min (length (l_coef c)) (length b) <> 1 -> k = Nat.min (length (l_coef c)) (length b)) ->
    has_label (ELinear kd c).
  Proof.
    intros kd c b k Eb Hk HL H1 H2.
    assert (K : forall X s, decision_function c X = Ok s -> exists r, linear_predict c X = Ok r) by (intros X s; apply (linear_labels c b k); auto).
    destruct kd.
    - eapply label_cl; [reflexivity|]. intros X P E. unfold logistic_predict_proba in E. bx E o Eo. destruct o.
      + destruct (lr_dec _ _ _ E) as (s & Es). eapply K; eauto.
      + bx E s Es. eapply K; eauto.
    - intros f X P F EP. cbn [obj_of classifier o_proba o_predict] in *. destruct (is_ok (check_proba c)); [|discriminate]. injection F as <-. cbn [fst] in EP.
      unfold sgd_predict_proba_inner in EP. bx EP s Es. destruct (str_eqb s (lit "log")); [|discriminate]. destruct (lr_dec _ _ _ EP) as (s' & Es'). destruct (K _ _ Es') as (r & Er).
      eexists. exists (PLab r). split; [reflexivity|]. cbn [fst]. rewrite Er. reflexivity.
    - intros f X P F. discriminate.
  Qed.
  Lemma nb_has_label : forall (m : nb A L) k, k_classes (V:=V) (ENb m) k -> 1 <= k -> has_label (ENb m).
  Proof.
    intros m k H Hk. assert (HC : length (nb_classes m) = k) by (inversion H; subst; reflexivity || auto). eapply label_cl; [reflexivity|].
    intros X P E. unfold nb_predict_proba, nb_predict_log_proba in E. bx E LP EL. bx EL X' EX. bx EL J EJ. unfold nb_predict. rewrite EX. cbn [bind]. rewrite EJ. cbn [bind].
    apply (picks_exist k); auto. apply (jll_wide m k X' J H EJ).
  Qed.

  Lemma bagging_label : forall (b : bagging A L) k X P, 1 <= k -> length (b_classes b) = k -> wide k P -> bagging_predict_proba b X = Ok P -> exists r, bagging_predict b X = Ok r.
  Proof.
    intros b k X P Hk HL W E. unfold bagging_predict. rewrite E. cbn [bind]. clear E. destruct (picks_exist k (b_classes b) P Hk HL W) as (r & Er). exists r.
    clear W. revert r Er. induction P as [|p P IH]; intros r E; cbn [mapM] in *; [exact E|].
    bx E y Ey. bx Ey i Ei. bx E ys Eys. injection E as <-. apply IH in Eys. bx Eys idx Eis. rewrite Ei. cbn [bind]. rewrite Eis. cbn [bind mapM] in *. rewrite Ey. cbn [bind]. rewrite Eys. reflexivity.
  Qed.

  Lemma gb_label : forall (b : gb A L) k X P, 1 <= k -> length (gb_classes b) = k -> wide k P -> gb_predict_proba b X = Ok P -> exists r, gb_predict b X = Ok r.
  Proof. intros b k X P Hk HL W E. unfold gb_predict. rewrite E. cbn [bind]. apply (picks_exist k); auto. Qed.

  Lemma label_all : forall (e : est A L V) k, k_classes e k -> 1 <= k -> has_label e.
  Proof.
    intros e k H Hk. assert (W := fun f X P HF => proj1 (width_all e k H) f X P (or_introl HF)).
    induction H as [t k HL HV|ms feats cl k HL HM IH|ts init lr nf cl k HL|ts init lr nf ls cl HL HS|g k HL HO HN|g HL HO|kd c b HL HC HB HB1|kd c b k NK HL HC HB HB1|g k HL|d k HL|d k HL HP|d k HL|pre nm e k H IH].
    - clear W. eapply label_cl; [reflexivity|]. intros X P E. unfold tree_predict_proba in E. bx E lv El. unfold tree_predict. rewrite El. cbn [bind].
      apply mapM_Forall2 in E. clear El. assert (G : exists pr, mapM (leaf_pred t) lv = Ok pr /\ Forall (fun i => i < k) pr).
      { induction E as [|nd p lv P E1 E2 IH]; [exists []; auto|]. destruct IH as (pr & Epr & Fpr). unfold leaf_proba in E1. bx E1 v Ev. cbn [mapM]. unfold leaf_pred at 1. rewrite Ev. cbn [bind].
        apply lget_In in Ev. rewrite Forall_forall in HV. assert (HW := HV _ Ev). destruct (argmax_total OK v) as (i & Ei); [destruct v; [cbn in HW; lia|discriminate]|].
        rewrite Ei. cbn [bind]. rewrite Epr. exists (i :: pr). split; auto. constructor; auto. apply (argmax_iff OK) in Ei. apply best_lt in Ei. lia. }
      destruct G as (pr & Epr & Fpr). rewrite Epr. cbn [bind]. apply mapM_exists. intros i Hi. rewrite Forall_forall in Fpr. specialize (Fpr _ Hi). unfold lnth. destruct (nth_error (t_classes t) i) as [y|] eqn:E3; [eauto|]. apply nth_error_None in E3. lia.
    - set (b := {| b_members := map (fun m => proba_of (ob m)) ms; b_feats := feats; b_classes := cl |}).
      apply (label_cl (EBagging ms feats cl) (bagging_predict b) (bagging_predict_proba b) (Some (bagging_predict_log_proba b)) cl eq_refl).
      intros X P E. apply (bagging_label b k X P); auto. apply (W (fun X => (bagging_predict_proba b (as_num X), X)) (DNum X) P eq_refl). exact E.
    - match goal with |- has_label (EGb ?ts ?ini ?lr ?nf ?ls ?cl) =>
        pose (g := {| gb_estimators := ts; gb_init := option_map (fun i => proba_of (ob i)) ini; gb_lr := lr; gb_nfeat := nf; gb_loss := ls; gb_classes := cl |});
        apply (label_cl (EGb ts ini lr nf ls cl) (gb_predict g) (gb_predict_proba g) (Some (gb_predict_log_proba g)) cl eq_refl) end.
      intros X P E. apply (gb_label g k X P); auto. apply (W (fun X => (gb_predict_proba g (as_num X), X)) (DNum X) P eq_refl). exact E.
    - match goal with |- has_label (EGb ?ts ?ini ?lr ?nf ?ls ?cl) =>
        pose (g := {| gb_estimators := ts; gb_init := option_map (fun i => proba_of (ob i)) ini; gb_lr := lr; gb_nfeat := nf; gb_loss := ls; gb_classes := cl |});
        apply (label_cl (EGb ts ini lr nf ls cl) (gb_predict g) (gb_predict_proba g) (Some (gb_predict_log_proba g)) cl eq_refl) end.
      intros X P E. apply (gb_label g 2 X P); auto. apply (W (fun X => (gb_predict_proba g (as_num X), X)) (DNum X) P eq_refl). exact E.
    - eapply label_cl; [reflexivity|]. intros X P E. unfold xgb_predict. rewrite E. cbn [bind]. apply (picks_exist k); auto. apply (W _ (DNum X) P eq_refl E).
    - eapply label_cl; [reflexivity|]. intros X P E. unfold xgb_predict. rewrite E. cbn [bind]. apply (picks_exist 2); auto. apply (W _ (DNum X) P eq_refl E).
    - apply (linear_has_label kd c b 2); auto; rewrite HC; intros; lia.
    - apply (linear_has_label kd c b k); auto; rewrite HC; intros; lia.
    - apply (nb_has_label _ k); auto. constructor; auto.
    - apply (nb_has_label _ k); auto. constructor; auto.
    - apply (nb_has_label _ k); auto. constructor; auto.
    - intros f X P F E. cbn [obj_of o_proba o_predict] in *. injection F as <-. cbn [fst] in E. unfold dummy_predict_proba in E. bx E n En.
      destruct (argmax_total OK (dm_prior d)) as (i & Ei); [destruct (dm_prior d); [cbn in HL; lia|discriminate]|].
      eexists. exists (PIdx (rep i n)). split; [reflexivity|]. cbn [fst]. unfold dummy_predict. rewrite Ei, En. reflexivity.
    - destruct (ends_follow veq vnum U (EPipeline (pre ++ [(nm, e)])) e (ends_last pre nm e e (ends_here e))) as (os & _ & H1 & H2 & _).
      assert (I := IH Hk (fun f X P HF => proj1 (width_all e k H) f X P (or_introl HF))). clear IH W.
      intros f X P F E. rewrite F in H2. destruct (o_proba (ob e)) as [h|] eqn:Eh; [|contradiction]. apply H2 in E. destruct E as (Z & HZ & E).
      destruct (I h Z P Eh E) as (g & p & Eg & Ep). rewrite Eg in H1. destruct (o_predict (ob (EPipeline (pre ++ [(nm, e)])))) as [g0|]; [|contradiction].
      exists g0, p. split; auto. apply H1. eauto.
  Qed.
End Shapes.
