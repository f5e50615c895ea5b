(** C24-C27: naive Bayes and dummy classifiers. *)
From Coq Require Import String Reals Lia Lra.
From Flocq Require Import Core BinarySingleNaN.
From Verif Require Import Model.Py Model.Arith Model.F64 Model.XR Model.Utils Model.Base Model.Linear Model.NaiveBayes Model.Dummy.
From Verif Require Import Spec.Matrix Spec.Ensembles Spec.Reals Spec.Libm Spec.Linear Spec.Bayes.
From Verif Require Import Proofs.Lib Proofs.Laws Proofs.Round Proofs.Unit Proofs.Arrays Proofs.Arrays2 Proofs.CRLibm Proofs.RealLib
  Proofs.Argmax Proofs.Ensemble Proofs.Boosting Proofs.Linear Proofs.LinearProba Proofs.Bayes.
Local Open Scope nat_scope.

(** Labels and log-probabilities as functions of the scores [J] (one row of K
    joint log likelihoods per input row): the label of the first largest score,
    and the scores minus log(sum(exp(scores))). *)
Definition decides {A : arith} {L} (n : nb A L) (M J : list (list A)) : Prop :=
  (forall out, nb_predict n (ll M) = Ok out <->
     Forall2 (fun s y => exists k, best s k /\ nth_error (nb_classes n) k = Some y) J out) /\
  (forall P, nb_predict_log_proba n (ll M) = Ok P <->
     Forall2 (fun s p => exists z, log_sum_exp s z /\ p = map (fun v => sub v z) s) J P).

(** C24.  Any arithmetic.  GaussianNB computes scores exactly when every score
    has a value by the formula, and then these are its scores. *)
Theorem C24_scores : forall (m : libm) (L : Type) (g : gaussian (F64 m) L) K (M : list (list (F64 m))),
  fitted_gaussian g K -> M <> [] ->
  (forall J, jll (Gaussian g) (ll M) = Ok J <->
     rect J (length M) K /\
     (forall i k row v p sg th, nth_error M i = Some row -> cell J i k = Some v ->
        nth_error (g_prior g) k = Some p -> nth_error (g_sigma g) k = Some sg -> nth_error (g_theta g) k = Some th ->
        gauss_score p sg th row v)) /\
  (forall J, jll (Gaussian g) (ll M) = Ok J -> decides (Gaussian g) M J).
Proof.
  intros m L g K M F N. split.
  - intro J. apply gauss_ok; auto.
  - intros J E. split; [apply (nb_predict_ok (F64_ord m)); auto|apply nb_log_proba_ok; auto].
Qed.
Print Assumptions C24_scores.

(** Exact arithmetic: positive variances and priors.  predict returns, for every
    finite matrix of the right width, the class maximising
    ln p_k - 1/2 sum ln(2 pi sg_kj) - 1/2 sum (x_j - th_kj)^2 / sg_kj. *)
Definition gauss_scores (K : nat) (prior : list R) (SG TH : list (list R)) (row : list R) : list R :=
  map (fun k => Rgauss (nth k prior 0%R) (nth k SG []) (nth k TH []) row) (seq 0 K).
Theorem C24_exact : forall (L : Type) (g : gaussian XR L) K d prior SG TH (M : list (list R)) r,
  g_prior g = fins prior -> g_sigma g = finss SG -> g_theta g = finss TH ->
  length prior = K -> rect SG K d -> rect TH K d -> length (g_classes g) = K -> 1 <= K ->
  Forall (fun p => (0 < p)%R) prior -> Forall (Forall (fun s => (0 < s)%R)) SG -> rect M r d -> 1 <= r ->
  jll (Gaussian g) (ll (finss M)) = Ok (finss (map (gauss_scores K prior SG TH) M)) /\
  (forall out, nb_predict (Gaussian g) (ll (finss M)) = Ok out <->
     Forall2 (fun row y => exists k, Rargmax (gauss_scores K prior SG TH row) k /\ nth_error (g_classes g) k = Some y) M out) /\
  exists out, nb_predict (Gaussian g) (ll (finss M)) = Ok out.
Proof.
  intros L g K d prior SG TH M r HP HS HT LP RS RT LC HK PP PS RM Hr.
  assert (NM : finss M <> []) by (destruct RM as [RM _]; destruct M; [simpl in RM; lia|discriminate]).
  assert (F : fitted_gaussian g K).
  { unfold fitted_gaussian. rewrite HP, HS, HT, fins_length. unfold finss. rewrite !map_length. destruct RS, RT. auto. }
  assert (RJ : rect (finss (map (gauss_scores K prior SG TH) M)) (length (finss M)) K).
  { apply rect_finss. unfold finss. rewrite map_length. split; [rewrite map_length; auto|]. apply Forall_map, Forall_forall. intros row _. unfold gauss_scores. rewrite map_length, seq_length. auto. }
  assert (E : jll (Gaussian g) (ll (finss M)) = Ok (finss (map (gauss_scores K prior SG TH) M))).
  { apply (gauss_ok g K); auto. split; auto. intros i k row v p sg th Hi Hv Hp Hs Ht.
    rewrite HP in Hp. rewrite HS in Hs. rewrite HT in Ht. unfold finss in Hi, Hs, Ht. rewrite nth_error_map' in Hi, Hs, Ht. rewrite nth_fins in Hp.
    destruct (nth_error M i) as [row'|] eqn:Ei; [|discriminate]. destruct (nth_error SG k) as [sg'|] eqn:Es; [|discriminate].
    destruct (nth_error TH k) as [th'|] eqn:Et; [|discriminate]. destruct (nth_error prior k) as [p'|] eqn:Ep; [|discriminate].
    injection Hi as <-. injection Hs as <-. injection Ht as <-. injection Hp as <-.
    assert (Ls : length sg' = d) by (eapply rect_row; [exact RS|eapply nth_error_In; eauto]).
    assert (Lt : length th' = d) by (eapply rect_row; [exact RT|eapply nth_error_In; eauto]).
    assert (Lr : length row' = d) by (eapply rect_row; [exact RM|eapply nth_error_In; eauto]).
    rewrite Forall_forall in PP. rewrite Forall_forall in PS.
    apply gauss_XR; try congruence; [apply PP; eapply nth_error_In; eauto|apply PS; eapply nth_error_In; eauto|].
    unfold cell, finss in Hv. rewrite !nth_error_map', Ei in Hv. simpl in Hv. rewrite nth_fins in Hv. unfold gauss_scores in Hv.
    rewrite nth_error_map', nth_error_seq in Hv. destruct (Nat.ltb_spec k K); [|discriminate]. simpl in Hv. injection Hv as <-.
    rewrite (nth_error_nth _ _ _ Ep), (nth_error_nth _ _ _ Es), (nth_error_nth _ _ _ Et). auto. }
  assert (P : forall out, nb_predict (Gaussian g) (ll (finss M)) = Ok out <->
     Forall2 (fun row y => exists k, Rargmax (gauss_scores K prior SG TH row) k /\ nth_error (g_classes g) k = Some y) M out).
  { intro out. rewrite (nb_predict_ok XR_ord (Gaussian g) (finss M) _ NM E). unfold finss. rewrite map_map, Forall2_map_l. apply Forall2_iff.
    intros row y. split; intros (k & B & Y); exists k; split; auto; apply best_fins, B. }
  split; auto. split; auto.
  unfold nb_predict. replace (check_array (ll (finss M)) HError) with (Ok (ll (finss M))) by (destruct M; [destruct RM; simpl in *; lia|reflexivity]).
  cbn [bind]. rewrite E. cbn [bind]. apply mapM_total. intros s Hs. unfold finss in Hs. rewrite map_map in Hs. apply in_map_iff in Hs. destruct Hs as (row & <- & _).
  destruct (argmax_total XR_ord (fins (gauss_scores K prior SG TH row))) as [k Ek].
  { unfold gauss_scores. destruct K; [lia|discriminate]. }
  rewrite Ek. cbn [bind]. apply (argmax_iff XR_ord) in Ek. apply best_lt in Ek. rewrite fins_length in Ek. unfold gauss_scores in Ek. rewrite map_length, seq_length in Ek.
  destruct (lnth_lt (g_classes g) k) as (y & Ey & _); [lia|]. exists y. exact Ey.
Qed.
Print Assumptions C24_exact.

(** On doubles a finite row can raise: the square of x - mean overflows. *)
Definition gauss1 {A : arith} : gaussian A nat :=
  {| g_prior := [one; one]; g_classes := [0; 1]; g_sigma := [[one]; [one]]; g_theta := [[zero]; [one]] |}.
Theorem C24_refuted : forall m : libm,
  is_finite (f_ofZE 1 1000) = true /\ nb_predict (A:=F64 m) (Gaussian gauss1) (ll [[f_ofZE 1 1000 : F64 m]]) = Err OverflowError.
Proof. intro m. split; vm_compute; reflexivity. Qed.
Print Assumptions C24_refuted.

(** What holds on doubles: predict returns whenever the variances are non-zero
    and every |x - mean| is at most 2^511. *)
Theorem C24_partial : forall (m : libm) (L : Type) (g : gaussian (F64 m) L) K d (M : list (list (F64 m))) r,
  fitted_gaussian g K -> rect (g_sigma g) K d -> rect (g_theta g) K d -> rect M r d -> 1 <= r ->
  Forall (Forall (fun s => eqb s zero = false)) (g_sigma g) ->
  (forall row th j x t, In row M -> In th (g_theta g) -> nth_error row j = Some x -> nth_error th j = Some t ->
     leb (absv (sub x t)) (ofZE 1 511 : F64 m) = true) ->
  exists out, nb_predict (Gaussian g) (ll M) = Ok out /\ length out = r.
Proof.
  intros m L g K d M r F RS RT RM Hr HS HX.
  assert (NM : M <> []) by (destruct RM as [RM _]; destruct M; [simpl in RM; lia|discriminate]).
  assert (LG : forall x : F64 m, exists y, safe_log x = Ok y). { intros x. destruct x as [[]|[]| |[] ? ? ?]; eexists; reflexivity. }
  assert (SC : forall k p sg th row, In row M -> nth_error (g_prior g) k = Some p -> nth_error (g_sigma g) k = Some sg -> nth_error (g_theta g) k = Some th ->
    exists v, gauss_score p sg th row v).
  { intros k p sg th row Hrow Hp Hs Ht. destruct (LG p) as [lp Elp].
    destruct (mapM_total (fun s => safe_log (mul (mul (ofZ 2) math_pi) s)) sg) as [ls Els]; [intros; apply LG|].
    assert (Ls : length sg = d) by (eapply rect_row; [exact RS|eapply nth_error_In; eauto]).
    assert (Lt : length th = d) by (eapply rect_row; [exact RT|eapply nth_error_In; eauto]).
    assert (Lr : length row = d) by (eapply rect_row; [exact RM|auto]).
    assert (Q : exists qs, mapM (fun j => x <- lnth row j ;; t <- lnth th j ;; s <- lnth sg j ;; d <- sqr (sub x t) ;; div d s) (seq 0 d) = Ok qs).
    { apply mapM_total. intros j Hj. apply in_seq in Hj. destruct (lnth_lt row j) as (x & Ex & Nx); [lia|]. destruct (lnth_lt th j) as (t & Et & Nt); [lia|].
      destruct (lnth_lt sg j) as (s & Es & Ns); [lia|]. rewrite Ex, Et, Es. cbn [bind].
      specialize (HX row th j x t Hrow ltac:(eapply nth_error_In; eauto) Nx Nt).
      destruct (sqr_small m _ HX) as [d2 ->]. cbn [bind]. apply (u_div_ok _ (F64_unit m)).
      rewrite Forall_forall in HS. specialize (HS sg ltac:(eapply nth_error_In; eauto)). rewrite Forall_forall in HS. apply HS. eapply nth_error_In; eauto. }
    destruct Q as [qs EQ]. eexists. exists lp, ls, qs. split; auto. split; [apply mapM_Forall2; auto|].
    assert (Lq : length qs = d) by (rewrite (mapM_length _ _ _ EQ), seq_length; auto). split; [congruence|]. split; [|reflexivity].
    intros j x q Hx Hq. destruct (mapM_nth_inv _ _ _ j q EQ Hq) as (b & Hb & E). rewrite nth_error_seq in Hb. destruct (j <? d); [|discriminate]. injection Hb as <-. cbn [Nat.add] in E.
    revert E. rewrite (proj2 (lnth_ok row j x) Hx). cbn [bind]. intro E. inv_bind E. inv_bind E. inv_bind E.
    repeat match goal with H : lnth _ _ = Ok _ |- _ => apply lnth_ok in H end. do 2 eexists. split; [eassumption|]. split; [eassumption|]. eexists. split; eassumption. }
  destruct F as (HK & LC & LP & LS & LT).
  assert (F : fitted_gaussian g K) by (repeat split; auto).
  assert (EJ : exists J, jll (Gaussian g) (ll M) = Ok J).
  { (* choose a score for every row and class *)
    assert (CH : forall row, In row M -> exists s, length s = K /\ forall k v p sg th, nth_error s k = Some v -> nth_error (g_prior g) k = Some p -> nth_error (g_sigma g) k = Some sg -> nth_error (g_theta g) k = Some th -> gauss_score p sg th row v).
    { intros row Hrow. assert (W : forall n, (n <= K)%nat -> exists s, length s = n /\ forall k v p sg th, nth_error s k = Some v -> nth_error (g_prior g) k = Some p -> nth_error (g_sigma g) k = Some sg -> nth_error (g_theta g) k = Some th -> gauss_score p sg th row v).
      { induction n as [|n IH]; intro Hn; [exists []; split; auto; intros [|] ? ? ? ? Q; discriminate|]. destruct IH as (s & Ls & HsS); [lia|].
        destruct (lnth_lt (g_prior g) n) as (p & _ & Hp); [lia|]. destruct (lnth_lt (g_sigma g) n) as (sg & _ & Hs); [lia|]. destruct (lnth_lt (g_theta g) n) as (th & _ & Ht); [lia|].
        destruct (SC n p sg th row Hrow Hp Hs Ht) as [v Hv]. exists (s ++ [v]). split; [rewrite app_length; cbn [length]; lia|].
        intros k v' p' sg' th' Hk Hp' Hs' Ht'. destruct (Nat.lt_ge_cases k n).
        - rewrite nth_error_app1 in Hk by lia. eapply HsS; eauto.
        - rewrite nth_error_app2 in Hk by lia. destruct (k - length s) as [|z] eqn:Ez; [|destruct z; discriminate]. injection Hk as <-. assert (k = n) by lia. subst k.
          rewrite Hp in Hp'. rewrite Hs in Hs'. rewrite Ht in Ht'. injection Hp' as <-. injection Hs' as <-. injection Ht' as <-. auto. }
      apply W. lia. }
    assert (CM : forall M', incl M' M -> exists J, rect J (length M') K /\ forall i k row v p sg th, nth_error M' i = Some row -> cell J i k = Some v ->
       nth_error (g_prior g) k = Some p -> nth_error (g_sigma g) k = Some sg -> nth_error (g_theta g) k = Some th -> gauss_score p sg th row v).
    { induction M' as [|row M' IH]; intro I; [exists []; split; [split; auto|]; intros [|] ? ? ? ? ? ? Q; discriminate|].
      destruct IH as (J & [LJ RJ] & HJ); [intros z Hz; apply I; right; auto|]. destruct (CH row) as (s & Ls & HsS); [apply I; left; auto|].
      exists (s :: J). split; [split; simpl; auto|]. intros [|i] k row' v p sg th Hi Hv.
      - injection Hi as <-. apply HsS. exact Hv.
      - apply (HJ i k row' v p sg th Hi Hv). }
    destruct (CM M ltac:(intros z Hz; auto)) as (J & RJ & HJ). exists J. apply (gauss_ok g K); auto. }
  destruct EJ as [J EJ]. assert (RJ := proj1 (proj1 (gauss_ok g K M J F NM) EJ)).
  unfold nb_predict. replace (check_array (ll M) HError) with (Ok (ll M)) by (destruct M; [congruence|reflexivity]). cbn [bind]. rewrite EJ. cbn [bind].
  destruct (mapM_total (fun a : list (F64 m) => i <- argmax a;; lnth (nb_classes (Gaussian g)) i) J) as [out Eo].
  - intros s Hs. destruct RJ as [_ RJ]. rewrite Forall_forall in RJ. specialize (RJ s Hs).
    destruct (argmax_total (F64_ord m) s) as [k Ek]; [destruct s; [simpl in RJ; lia|discriminate]|]. rewrite Ek. cbn [bind].
    apply (argmax_iff (F64_ord m)) in Ek. apply best_lt in Ek. rewrite RJ in Ek. destruct (lnth_lt (g_classes g) k) as (y & Ey & _); [lia|]. exists y. exact Ey.
  - exists out. split; auto. rewrite (mapM_length _ _ _ Eo). destruct RJ as [-> _]. apply RM.
Qed.
Print Assumptions C24_partial.
(** Non-trivial instances. *)
Example C24_ex_fitted : forall m, fitted_gaussian (gauss1 (A:=F64 m)) 2.
Proof. repeat split; lia. Qed.
Example C24_ex_partial : forall m, exists out, nb_predict (A:=F64 m) (Gaussian gauss1) (ll [[f_ofZE 3 0 : F64 m]; [f_ofZE 1 2 : F64 m]]) = Ok out /\ length out = 2.
Proof.
  intro m. apply (C24_partial m nat gauss1 2 1); [apply C24_ex_fitted|split; repeat constructor|split; repeat constructor|split; repeat constructor|lia| |].
  - repeat constructor; vm_compute; reflexivity.
  - intros row th j x t Hr Ht Hx Hy. destruct j as [|[|]].
    + destruct Hr as [<-|[<-|[]]]; destruct Ht as [<-|[<-|[]]]; injection Hx as <-; injection Hy as <-; vm_compute; reflexivity.
    + destruct Hr as [<-|[<-|[]]]; discriminate.
    + destruct Hr as [<-|[<-|[]]]; discriminate.
Qed.
Example C24_ex_exact : exists out, nb_predict (A:=XR) (Gaussian gauss1) (ll (finss [[3%R]])) = Ok out.
Proof.
  assert (Z : (zero : XR) = XFin 0) by apply x_zero. assert (O : (one : XR) = XFin 1) by apply x_one.
  destruct (C24_exact nat gauss1 2 1 [1;1]%R [[1];[1]]%R [[0];[1]]%R [[3%R]] 1) as (_ & _ & H); auto; try lia;
    try (split; repeat constructor); try (repeat constructor; lra); unfold gauss1; cbn [g_prior g_sigma g_theta]; unfold finss, fins; cbn [map]; rewrite ?Z, ?O; auto.
Qed.

(** C25.  MultinomialNB: scores x . w_k + b_k. *)
Theorem C25_multinomial : forall (m : libm) (L : Type) (d : discrete (F64 m) L) K (M : list (list (F64 m))),
  length (d_classes d) = K -> length (d_log_prior d) = K -> length (d_log_prob d) = K -> M <> [] ->
  exists J, Forall2 (affine (d_log_prob d) (d_log_prior d)) M J /\ jll (Multinomial d) (ll M) = Ok J /\ decides (Multinomial d) M J.
Proof.
  intros m L d K M H1 H2 H3 N. pose proof (multinomial_ok d K M H1 H2 H3) as E.
  eexists. split; [|split; [exact E|]].
  - rewrite Forall2_map_r. apply Forall2_diag. intros; apply affine_row_ok; lia.
  - split; [apply (nb_predict_ok (F64_ord m)); auto|apply nb_log_proba_ok; auto].
Qed.
Print Assumptions C25_multinomial.

(** ComplementNB: the class prior is added only when there is one class. *)
Theorem C25_complement : forall (m : libm) (L : Type) (d : discrete (F64 m) L) (M : list (list (F64 m))),
  M <> [] ->
  (length (d_classes d) <> 1 ->
     let J := map (fun row => map (fun w => dotp row w) (d_log_prob d)) M in
     jll (Complement d) (ll M) = Ok J /\ decides (Complement d) M J) /\
  (forall c w p, d_classes d = [c] -> d_log_prob d = [w] -> d_log_prior d = [p] ->
     let J := map (fun row => [add (dotp row w) p]) M in
     jll (Complement d) (ll M) = Ok J /\ decides (Complement d) M J).
Proof.
  intros m L d M N.
  assert (G : forall J, jll (Complement d) (ll M) = Ok J -> jll (Complement d) (ll M) = Ok J /\ decides (Complement d) M J).
  { intros J E. split; auto. split; [apply (nb_predict_ok (F64_ord m)); auto|apply nb_log_proba_ok; auto]. }
  split.
  - intros H J. apply G. apply complement_ok. auto.
  - intros c w p H1 H2 H3 J. apply G. apply complement_one; auto. rewrite H1. auto.
Qed.
Print Assumptions C25_complement.

(** In exact arithmetic predict is the argmax of x . w_k + b_k and never fails. *)
Theorem C25_exact : forall (L : Type) (d : discrete XR L) K W b (M : list (list R)),
  length (d_classes d) = K -> d_log_prior d = fins b -> d_log_prob d = finss W -> length b = K -> length W = K -> 1 <= K -> M <> [] ->
  let scores row := map (fun wb => (Rdot row (fst wb) + snd wb)%R) (combine W b) in
  (forall out, nb_predict (Multinomial d) (ll (finss M)) = Ok out <->
     Forall2 (fun row y => exists k, Rargmax (scores row) k /\ nth_error (d_classes d) k = Some y) M out) /\
  exists out, nb_predict (Multinomial d) (ll (finss M)) = Ok out.
Proof.
  intros L d K W b M H1 H2 H3 Lb LW HK N scores.
  assert (NM : finss M <> []) by (destruct M; [congruence|discriminate]).
  assert (SC : forall row, length (scores row) = K) by (intro row; unfold scores; rewrite map_length, combine_length; lia).
  assert (E : jll (Multinomial d) (ll (finss M)) = Ok (finss (map scores M))).
  { rewrite (multinomial_ok d K); auto; [|rewrite H2, fins_length; auto|rewrite H3; unfold finss; rewrite map_length; auto].
    f_equal. rewrite H2, H3. unfold finss at 2 3. rewrite !map_map. apply map_ext. intro row. unfold affine_row, scores. clear.
    revert b. induction W as [|w W IH]; intro b; auto. destruct b as [|bk b]; auto. cbn [finss fins map zip_with combine]. unfold fins. cbn [map]. f_equal; [|apply IH].
    cbn [fst snd]. pose proof (dotp_fins row w) as Q. unfold fins in Q. rewrite Q. reflexivity. }
  assert (P : forall out, nb_predict (Multinomial d) (ll (finss M)) = Ok out <->
     Forall2 (fun row y => exists k, Rargmax (scores row) k /\ nth_error (d_classes d) k = Some y) M out).
  { intro out. rewrite (nb_predict_ok XR_ord (Multinomial d) (finss M) _ NM E). unfold finss. rewrite map_map, Forall2_map_l. apply Forall2_iff.
    intros row y. split; intros (k & B & Y); exists k; split; auto; apply best_fins, B. }
  split; auto.
  unfold nb_predict. replace (check_array (ll (finss M)) HError) with (Ok (ll (finss M))) by (destruct M; [congruence|reflexivity]).
  cbn [bind]. rewrite E. cbn [bind]. apply mapM_total. intros s Hs. unfold finss in Hs. rewrite map_map in Hs. apply in_map_iff in Hs. destruct Hs as (row & <- & _).
  specialize (SC row). destruct (argmax_total XR_ord (fins (scores row))) as [k Ek].
  { destruct (scores row); [simpl in SC; lia|discriminate]. }
  rewrite Ek. cbn [bind]. apply (argmax_iff XR_ord) in Ek. apply best_lt in Ek. rewrite fins_length in Ek.
  destruct (lnth_lt (d_classes d) k) as (y & Ey & _); [lia|]. exists y. exact Ey.
Qed.
Print Assumptions C25_exact.

Definition mnb1 {A : arith} (p q : A) : discrete A nat :=
  {| d_log_prior := [p; q]; d_classes := [7; 9]; d_log_prob := [[zero]; [one]] |}.
Example C25_ex : forall m, nb_predict (A:=F64 m) (Multinomial (mnb1 one zero)) (ll [[f_ofZE 1 0 : F64 m]; [f_ofZE 3 0 : F64 m]]) = Ok [7; 9] /\
  nb_predict (A:=F64 m) (Complement (mnb1 one zero)) (ll [[f_ofZE 1 0 : F64 m]; [f_ofZE 3 0 : F64 m]]) = Ok [9; 9].
Proof. intro m. split; vm_compute; reflexivity. Qed.

(** C26.  Exact arithmetic: whatever the classifier, if its scores are [J] then
    predict_proba is the softmax of each row of scores - a distribution whose
    largest entry is the predicted class - and predict_log_proba its logarithm. *)
Theorem C26_exact : forall (L : Type) (n : nb XR L) (M : list (list XR)) (J : list (list R)),
  M <> [] -> jll n (ll M) = Ok (finss J) -> Forall (fun s => s <> []) J ->
  nb_predict_proba n (ll M) = Ok (finss (map softmax J)) /\
  nb_predict_log_proba n (ll M) = Ok (finss (map (map ln) (map softmax J))) /\
  Forall distribution (map softmax J) /\
  (forall out, nb_predict n (ll M) = Ok out <->
     Forall2 (fun p y => exists k, Rargmax p k /\ nth_error (nb_classes n) k = Some y) (map softmax J) out).
Proof.
  intros L n M J N E H.
  assert (P : nb_predict_log_proba n (ll M) = Ok (finss (map (map ln) (map softmax J)))).
  { apply (nb_log_proba_ok n M (finss J) N E). unfold finss. rewrite !map_map. rewrite Forall2_map_l, Forall2_map_r. apply Forall2_diag. intros s Hs.
    rewrite Forall_forall in H. specialize (H s Hs). exists (XFin (ln (Rsum (map exp s)))). split; [apply logsumexp_XR; auto|].
    unfold softmax, fins. rewrite !map_map. apply map_ext. intro x. f_equal. rewrite <- exp_lse by auto. rewrite ln_exp. reflexivity. }
  split; [|split; [exact P|split]].
  - unfold nb_predict_proba. rewrite P. cbn [bind]. unfold finss at 1. rewrite mapM_map. unfold finss. rewrite !map_map, <- mapM_Ok, !mapM_map.
    apply mapM_ext. intros s Hs. rewrite mapM_safe_exp. do 2 f_equal. unfold softmax. rewrite !map_map. apply map_ext. intro x. rewrite exp_ln; auto.
    rewrite Forall_forall in H. specialize (H s Hs). apply Rdiv_lt_0_compat; [apply exp_pos|]. apply Rsum_pos_lt; [destruct s; [congruence|discriminate]|apply exps_pos].
  - apply Forall_map. eapply Forall_impl; [|exact H]. intros; apply softmax_dist; auto.
  - intro out. rewrite (nb_predict_ok XR_ord n M _ N E). unfold finss. rewrite !Forall2_map_l. apply Forall2_iff. intros s y.
    split; intros (k & B & Y); exists k; split; auto.
    + apply Rargmax_softmax. apply best_fins. exact B.
    + apply best_fins. apply Rargmax_softmax. exact B.
Qed.
Print Assumptions C26_exact.

(** On doubles the claim fails: two equal scores of -1000 make log(sum(exp)))
    minus infinity and both probabilities plus infinity. *)
Theorem C26_refuted : forall m : libm, exp_underflows m fm1000 ->
  nb_predict_proba (A:=F64 m) (Multinomial {| d_log_prior := [fm1000 : F64 m; fm1000]; d_classes := [0; 1]; d_log_prob := [[zero]; [zero]] |})
    (ll [[one : F64 m]]) = Ok [[pinf; pinf]].
Proof.
  intros m [s U].
  set (d := {| d_log_prior := [fm1000 : F64 m; fm1000]; d_classes := [0; 1]; d_log_prob := [[zero]; [zero]] |}).
  assert (V : add (dotp [one : F64 m] [zero]) (fm1000 : F64 m) = fm1000).
  { assert (Z : dotp [one : F64 m] [zero] = (B754_zero false : F64 m)) by (vm_compute; reflexivity). rewrite Z.
    destruct (add_0_id fm1000) as [Q|Q]; [exact Q|discriminate]. }
  assert (E : jll (Multinomial d) (ll [[one : F64 m]]) = Ok [[fm1000 : F64 m; fm1000]]).
  { rewrite (multinomial_ok d 2) by reflexivity. unfold affine_row, d. cbn [map zip_with d_log_prob d_log_prior]. rewrite V. reflexivity. }
  assert (Q : safe_exp (fm1000 : F64 m) = Ok (B754_zero s)) by (rewrite safe_exp_fin by reflexivity; f64; rewrite U; reflexivity).
  unfold nb_predict_proba, nb_predict_log_proba. cbn [check_array ll map bind]. 
  change (Arr [Ls [one : F64 m]]) with (ll [[one : F64 m]]). rewrite E. cbn [bind mapM]. unfold logsumexp. cbn [mapM bind]. rewrite Q. cbn [bind].
  destruct s; vm_compute; reflexivity.
Qed.
Print Assumptions C26_refuted.

(** What holds on doubles: if no score is NaN and each row's sum of exponentials
    is finite and not zero, then predict_proba succeeds, no probability is
    negative or NaN, probabilities are ordered like the scores, and when one
    probability exceeds all others it is that of the predicted label. *)
Definition moderate {m : libm} (s : list (F64 m)) : Prop :=
  Forall (fun v => isnan v = false) s /\
  exists es, Forall2 (fun x e => safe_exp x = Ok e) s es /\ finite (psum es) /\ ltb zero (psum es) = true.
Theorem C26_partial : forall m (L : Type) (n : nb (F64 m) L) (M J : list (list (F64 m))),
  exp_nonneg m -> exp_monotone m -> log_finite m ->
  M <> [] -> jll n (ll M) = Ok J -> Forall moderate J ->
  exists P, nb_predict_proba n (ll M) = Ok P /\
    Forall2 (fun s p =>
      length p = length s /\ Forall (fun q => leb zero q = true) p /\
      (forall j k x y u w, nth_error s j = Some x -> nth_error s k = Some y -> leb x y = true ->
         nth_error p j = Some u -> nth_error p k = Some w -> leb u w = true)) J P /\
    forall out i p k y, nb_predict n (ll M) = Ok out -> nth_error P i = Some p -> nth_error out i = Some y ->
      strict_max p k -> nth_error (nb_classes n) k = Some y.
Proof.
  intros m L n M J HE HM HL N E H.
  assert (G : exists Z, Forall2 (fun s (z : F64 m) => log_sum_exp s z /\ is_finite z = true) J Z).
  { clear E. induction H as [|s J (Hs & es & Fe & Fs & Ps) H (Z & IH)]; [exists []; constructor|].
    assert (Q : exists z : F64 m, safe_log (psum es) = Ok z /\ is_finite z = true).
    { clear -HL Fs Ps. revert Fs Ps. generalize (psum es). intros v Fs Ps. unfold finite in Fs. f64. pose proof (proj1 (f_finite_iff v) Fs) as Fv.
      rewrite f_ltb_x, b2x_zero, (b2x_fin v Fv) in Ps. simpl in Ps. apply Rltb_lt in Ps.
      exists (m_log m v). split; [|apply HL; auto]. unfold safe_log. f64.
      destruct v as [[]|[]| |[] ? ? ?]; try discriminate; simpl in Ps; try lra; try reflexivity.
      exfalso. clear -Ps. unfold F2R in Ps. cbn [Fnum Fexp] in Ps. pose proof (bpow_gt_0 radix2 e). rewrite <- (Rmult_0_l (bpow radix2 e)) in Ps. apply Rmult_lt_reg_r in Ps; auto. apply lt_IZR in Ps. discriminate. }
    destruct Q as (z & Ez & Fz). exists (z :: Z). constructor; auto. split; auto. exists es. auto. }
  destruct G as [Z FZ].
  assert (P : exists P, nb_predict_proba n (ll M) = Ok P /\ Forall2 (fun s p => exists z : F64 m, is_finite z = true /\ Forall2 (fun v q => safe_exp (sub v z) = Ok q) s p) J P).
  { assert (LP : nb_predict_log_proba n (ll M) = Ok (zip_with (fun s z => map (fun v => sub v z) s) J Z)).
      { apply (nb_log_proba_ok n M J N E). clear -FZ. induction FZ as [|s z J Z [H1 H2] F IH]; simpl; constructor; eauto. }
      unfold nb_predict_proba. rewrite LP. cbn [bind]. clear -FZ. induction FZ as [|s z J Z [H1 H2] F (P & EP & IH)]; [exists []; split; auto|].
      destruct (mapM_total safe_exp (map (fun v => sub v z) s)) as [p Ep]; [intros; apply safe_exp_total|].
      exists (p :: P). cbn [zip_with mapM]. rewrite Ep. cbn [bind]. rewrite EP. split; auto. constructor; auto. exists z. split; auto.
      apply mapM_Forall2 in Ep. rewrite Forall2_map_l in Ep. exact Ep. }
  destruct P as (P & EP & FP). exists P. split; auto.
  assert (R : Forall2 (fun s p => Forall (fun v => isnan v = false) s /\
      length p = length s /\ Forall (fun q => leb zero q = true) p /\
      (forall j k x y u w, nth_error s j = Some x -> nth_error s k = Some y -> leb x y = true ->
         nth_error p j = Some u -> nth_error p k = Some w -> leb u w = true)) J P).
  { clear -FP H HE HM. induction FP as [|s p J P (z & Fz & F) FP IH]; constructor; [|apply IH; inversion H; auto].
    inversion H as [|? ? [Hs _]]; subst. split; auto. split; [symmetry; apply (Forall2_len _ _ _ F)|]. split.
    - clear -F Hs Fz HE. induction F; constructor; inversion Hs; subst; auto. apply (safe_exp_ge0 m HE _ _ (sub_nan m z x Fz H2) H).
    - intros j k x y u w Hx Hy Lxy Hu Hw. apply Forall2_nth_error in F. destruct F as [_ F].
      apply (safe_exp_mono' m HE HM (sub x z) (sub y z)); [apply sub_mono; auto|apply (F j); auto|apply (F k); auto]. }
  split; [eapply Forall2_imp; [|exact R]; intros s p (_ & ?); auto|].
  intros out i p k y Eo Hp Hy (v & Hk & Hs). apply (nb_predict_ok (F64_ord m) n M J N E) in Eo.
  apply Forall2_nth_error in R. destruct R as [LR R]. destruct (nth_error_len _ _ _ _ LR Hp) as [s Hsn].
  destruct (R i s p Hsn Hp) as (NN & Ln & _ & Mono).
  pose proof (strict_best' m s p k v Ln NN Mono Hk Hs) as B.
  apply Forall2_nth_error in Eo. destruct Eo as [_ Eo]. destruct (Eo i s y Hsn Hy) as (k' & B' & Y). rewrite (best_unique _ _ _ B B'). auto.
Qed.
Print Assumptions C26_partial.
(** A class with prior probability 0 (log prior minus infinity) beside another one. *)
Example C26_ex : exists J : list (list (F64 crlibm)),
  jll (Multinomial {| d_log_prior := [zero : F64 crlibm; ninf]; d_classes := [0; 1]; d_log_prob := [[zero]; [zero]] |}) (ll [[one : F64 crlibm]]) = Ok J /\ Forall moderate J.
Proof.
  exists [[zero; ninf]]. split; [vm_compute; reflexivity|]. constructor; [|constructor]. split; [repeat constructor|].
  destruct (cr_exp_0 false) as (y & Ey & Fy & Vy). exists [y : F64 crlibm; zero]. split.
  - constructor; [|constructor; [reflexivity|constructor]]. rewrite safe_exp_fin by reflexivity. change (m_exp crlibm (zero : F64 crlibm)) with (m_exp crlibm (B754_zero false)). rewrite Ey. reflexivity.
  - assert (V : b2x (psum [y : F64 crlibm; zero]) = XFin 1).
    { change (psum [y : F64 crlibm; zero]) with (f_add (f_add (f_ofZE 0 0) y) (f_ofZE 0 0)). rewrite !f_add_x, b2x_zero, (b2x_fin y Fy), Vy.
      cbn [x_add xround]. rewrite Rplus_0_l. assert (F1 : fround 1 = XFin 1) by (apply (fround_IZR 1); lia). rewrite F1. cbn [x_add xround]. rewrite Rplus_0_r. exact F1. }
    revert V. generalize (psum [y : F64 crlibm; zero]). intros v V. unfold finite. f64. split; [apply f_fin_iff; eauto|]. rewrite f_ltb_x, b2x_zero, V. simpl. apply Rltb_lt. lra.
Qed.

(** C27.  predict returns, for each row, the index of the first largest prior;
    predict_proba the prior, predict_log_proba its logarithm. *)
Theorem C27_predict : forall (m : libm) (d : dummy (F64 m)) (X : arr (F64 m)) n,
  len X = Ok n ->
  (forall out, dummy_predict d X = Ok out <-> exists i, best (dm_prior d) i /\ out = repeat i n) /\
  dummy_predict_proba d X = Ok (repeat (dm_prior d) n) /\
  (forall P, dummy_predict_log_proba d X = Ok P <->
     exists l, Forall2 (fun p v => safe_log p = Ok v) (dm_prior d) l /\ P = repeat l n).
Proof.
  intros m d X n Hn. assert (R : forall {B} (x : B), rep x n = repeat x n) by (intros; unfold rep; auto).
  split; [|split].
  - intro out. unfold dummy_predict. rewrite Hn. split.
    + intro H. inv_bind H. cbn [bind] in H. injection H as <-. exists a. split; auto. apply (argmax_iff (F64_ord m)). auto.
    + intros (i & B & ->). apply (argmax_iff (F64_ord m)) in B. rewrite B. reflexivity.
  - unfold dummy_predict_proba. rewrite Hn. reflexivity.
  - intro P. unfold dummy_predict_log_proba, dummy_predict_proba. rewrite Hn. cbn [bind].
    assert (LG : exists l, mapM safe_log (dm_prior d) = Ok l). { apply mapM_total. intros x _. destruct x as [[]|[]| |[] ? ? ?]; eexists; reflexivity. }
    destruct LG as [l El].
    assert (E : apply_2d (ll (rep (dm_prior d) n)) safe_log = Ok (repeat l n)).
    { unfold apply_2d, ll. cbn [items bind issparse]. rewrite mapM_map. clear Hn R. unfold rep. induction n as [|n IH]; [reflexivity|].
      cbn [repeat mapM iter_item bind]. cbn [iter_item bind] in IH. rewrite El. cbn [bind]. rewrite IH. reflexivity. }
    rewrite E. split.
    + intro H. injection H as <-. exists l. split; auto. apply mapM_Forall2. auto.
    + intros (l' & F & ->). apply mapM_Forall2 in F. rewrite El in F. injection F as <-. auto.
Qed.
Print Assumptions C27_predict.

(** The labels themselves are not returned: with classes [5; 7] and the second
    one the most frequent, predict returns 1. *)
Theorem C27_refuted : forall m : libm,
  exists (classes : list nat) (prior : list (F64 m)) (d : dummy (F64 m)),
    length classes = length prior /\ dummy_convert None (lit "prior") prior = Ok d /\
    best prior 1 /\ nth_error classes 1 = Some 7 /\
    dummy_predict d (ll [[zero : F64 m]]) = Ok [1] /\ ~ In 1 classes.
Proof.
  intro m. exists [5; 7], [f_ofZE 1 (-2) : F64 m; f_ofZE 3 (-2)], {| dm_prior := [f_ofZE 1 (-2) : F64 m; f_ofZE 3 (-2)] |}.
  split; auto. split; [reflexivity|]. split; [apply (argmax_iff (F64_ord m)); vm_compute; reflexivity|]. split; auto.
  split; [vm_compute; reflexivity|]. intros [Q|[Q|[]]]; discriminate.
Qed.
Print Assumptions C27_refuted.

(** What holds: when the classes are 0..K-1 the label is returned. *)
Theorem C27_partial : forall (m : libm) (d : dummy (F64 m)) (X : arr (F64 m)) n,
  len X = Ok n -> dm_prior d <> [] ->
  exists out i, dummy_predict d X = Ok out /\ best (dm_prior d) i /\
    Forall2 (fun _ y => nth_error (seq 0 (length (dm_prior d))) i = Some y) (repeat tt n) out.
Proof.
  intros m d X n Hn N. destruct (argmax_total (F64_ord m) (dm_prior d) N) as [i Ei]. pose proof (proj1 (argmax_iff (F64_ord m) _ _) Ei) as B.
  exists (repeat i n), i. split; [|split; auto].
  - unfold dummy_predict. rewrite Ei, Hn. reflexivity.
  - clear Hn. apply best_lt in B. apply Nat.ltb_lt in B. induction n; cbn [repeat]; constructor; auto. rewrite nth_error_seq, B. reflexivity.
Qed.
Print Assumptions C27_partial.

(** Conversion succeeds exactly for the "prior" strategy ([_strategy] wins over [strategy]). *)
Theorem C27_convert : forall (m : libm) us s (prior : list (F64 m)),
  (exists d, dummy_convert us s prior = Ok d) <-> (us = Some (lit "prior") \/ (us = None /\ s = lit "prior")).
Proof.
  intros m us s prior. unfold dummy_convert.
  assert (G : forall t, (exists d : dummy (F64 m), (guard (str_eqb t (lit "prior")) ValueError;; Ok {| dm_prior := prior |}) = Ok d) <-> t = lit "prior").
  { intro t. rewrite <- (str_eqb_ok t). destruct (str_eqb t (lit "prior")); split; auto; [intro; eexists; reflexivity|intros (d & Q); discriminate Q|intro Q; discriminate Q]. }
  destruct us as [t|]; rewrite G; split; intros; auto.
  - left. f_equal. auto.
  - destruct H as [H|[H _]]; [injection H; auto|discriminate].
  - destruct H as [H|[_ H]]; [discriminate|auto].
Qed.
Print Assumptions C27_convert.
Example C27_ex : forall m, len (ll [[zero : F64 m]; [one : F64 m]]) = Ok 2 /\ best [one : F64 m; zero; one] 0.
Proof. intro m. split; [reflexivity|]. apply (argmax_iff (F64_ord m)). vm_compute. reflexivity. Qed.
