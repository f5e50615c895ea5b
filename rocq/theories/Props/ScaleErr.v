(** Accuracy of the scalers and of tf-idf on doubles. *)
From Coq Require Import String Reals Lia Lra List.
From Flocq Require Import Core BinarySingleNaN.
From Verif Require Import Model.Py Model.Arith Model.F64 Model.XR Model.Utils Model.Base Model.Preprocessing Model.Text.
From Verif Require Import Spec.Matrix Spec.Reals Spec.Scaling Spec.Text Spec.Rounding Spec.ScaleErr.
From Verif Require Import Proofs.Lib Proofs.Laws Proofs.Round Proofs.Unit Proofs.Arrays Proofs.Arrays2 Proofs.RealLib Proofs.Scaling Proofs.SumErr Proofs.DotErr Proofs.NormErr Proofs.ScaleErr.
From Verif Require Import Props.Scaling Props.Accuracy Props.Text.
Import ListNotations.
Local Open Scope nat_scope.

Lemma nz_is0 : forall (m : libm) (s : F64 m), real s <> 0%R -> ~ is0 s.
Proof.
  intros m s N Z. apply N. unfold is0 in Z. change (f_eqb s (f_ofZE 0 0) = true) in Z.
  destruct s as [sg|sg| |sg mm e B]; try reflexivity; exfalso; vm_compute in Z; try destruct sg; discriminate.
Qed.

(** C28.  StandardScaler: every cell is (x - mean) / scale up to about one unit in
    the last place, when nothing comes near overflow. *)
Theorem C28_accuracy_float : forall (m : libm) (mean scale : list (F64 m)) (M : list (list (F64 m))) r c,
  rect M r c -> 1 <= r -> length mean = c -> length scale = c ->
  (forall i j x t s, cell M i j = Some x -> nth_error mean j = Some t -> nth_error scale j = Some s ->
     is_finite x = true /\ is_finite t = true /\ is_finite s = true /\ real s <> 0%R /\
     (Rabs (real x) + Rabs (real t) <= huge)%R /\ (Rabs ((real x - real t) / real s) <= bpow radix2 990)%R) ->
  exists D, std_transform {| ss_mean_on := true; ss_std_on := true; ss_scale := Some scale; ss_mean := Some mean |} (ll M) = Ok (ll D) /\ rect D r c /\
    forall i j x t s, cell M i j = Some x -> nth_error mean j = Some t -> nth_error scale j = Some s ->
      exists v, cell D i j = Some v /\ is_finite v = true /\
        (Rabs (real v - (real x - real t) / real s) <= 2 * ulp1 * Rabs ((real x - real t) / real s) + tiny)%R.
Proof.
  intros m mean scale M r c RM Hr LM LS H.
  set (sc := {| ss_mean_on := true; ss_std_on := true; ss_scale := Some scale; ss_mean := Some mean |}).
  destruct (mapped_exists (standard true true mean scale) M r c RM) as [D HD].
  - intros i j x Hx. destruct (cell_lt M r c i j x RM Hx) as [_ Hj].
    destruct (lnth_lt mean j) as (t & _ & Et); [lia|]. destruct (lnth_lt scale j) as (s & _ & Es); [lia|].
    destruct (H i j x t s Hx Et Es) as (Fx & Ft & Fs & NS & B1 & B2). destruct (std_cell x t s Fx Ft Fs NS B1 B2) as (v & Ev & _).
    exists v, (sub x t). split; [exists t; auto|exists s; auto].
  - exists D. split; [apply (C28_dense m sc mean scale M r c RM Hr); auto; eauto|]. split; [apply HD|].
    intros i j x t s Hx Et Es. destruct HD as [_ HD]. destruct (HD i j x Hx) as (v & Hv & y & (t' & Et' & ->) & (s' & Es' & Ev)).
    rewrite Et in Et'. injection Et' as <-. rewrite Es in Es'. injection Es' as <-.
    destruct (H i j x t s Hx Et Es) as (Fx & Ft & Fs & NS & B1 & B2). destruct (std_cell x t s Fx Ft Fs NS B1 B2) as (v' & Ev' & Fv & Cv).
    exists v. split; auto. change (f_div (f_sub x t) s = Ok v) in Ev. rewrite Ev in Ev'. injection Ev' as <-. auto.
Qed.
Print Assumptions C28_accuracy_float.

(** C29.  MaxAbsScaler: x / scale up to one unit in the last place. *)
Theorem C29_maxabs_accuracy_float : forall (m : libm) (scale : list (F64 m)) (M : list (list (F64 m))) r c,
  rect M r c -> 1 <= r -> length scale = c ->
  (forall i j x s, cell M i j = Some x -> nth_error scale j = Some s ->
     is_finite x = true /\ is_finite s = true /\ real s <> 0%R /\ (Rabs (real x / real s) <= bpow radix2 990)%R) ->
  exists D, maxabs_transform (Some scale) (ll M) = Ok (ll D) /\ rect D r c /\
    forall i j x s, cell M i j = Some x -> nth_error scale j = Some s ->
      exists v, cell D i j = Some v /\ is_finite v = true /\ (Rabs (real v - real x / real s) <= ulp1 * Rabs (real x / real s) + tiny)%R.
Proof.
  intros m scale M r c RM Hr LS H.
  destruct (mapped_exists (divided scale) M r c RM) as [D HD].
  - intros i j x Hx. destruct (cell_lt M r c i j x RM Hx) as [_ Hj]. destruct (lnth_lt scale j) as (s & _ & Es); [lia|].
    destruct (H i j x s Hx Es) as (Fx & Fs & NS & B). destruct (div_cell x s Fx Fs NS B) as (v & Ev & _). exists v, s. auto.
  - exists D. split; [apply (C29_maxabs m scale M r c RM Hr LS); eauto|]. split; [apply HD|].
    intros i j x s Hx Es. destruct HD as [_ HD]. destruct (HD i j x Hx) as (v & Hv & s' & Es' & Ev). rewrite Es in Es'. injection Es' as <-.
    destruct (H i j x s Hx Es) as (Fx & Fs & NS & B). destruct (div_cell x s Fx Fs NS B) as (v' & Ev' & Fv & Cv).
    exists v. split; auto. change (f_div x s = Ok v) in Ev. rewrite Ev in Ev'. injection Ev' as <-. auto.
Qed.
Print Assumptions C29_maxabs_accuracy_float.

(** MinMaxScaler: x * scale + offset, with an error relative to the sizes of the
    two terms. *)
Theorem C29_minmax_accuracy_float : forall (m : libm) (scale mn : list (F64 m)) (M : list (list (F64 m))) r c,
  rect M r c -> 1 <= r -> length scale = c -> length mn = c ->
  (forall i j x s b, cell M i j = Some x -> nth_error scale j = Some s -> nth_error mn j = Some b ->
     is_finite x = true /\ is_finite s = true /\ is_finite b = true /\ (Rabs (real x * real s) + Rabs (real b) <= bpow radix2 1000)%R) ->
  exists D, minmax_transform {| mm_scale := Some scale; mm_min := Some mn |} (ll M) = Ok (ll D) /\ rect D r c /\
    forall i j x s b, cell M i j = Some x -> nth_error scale j = Some s -> nth_error mn j = Some b ->
      exists v, cell D i j = Some v /\ is_finite v = true /\
        (Rabs (real v - (real x * real s + real b)) <= 2 * ulp1 * (Rabs (real x * real s) + Rabs (real b)) + tiny)%R.
Proof.
  intros m scale mn M r c RM Hr LS LB H. destruct (C29_minmax m scale mn M r c RM Hr LS LB) as (D & E & HD & _). exists D. split; auto. split; [apply HD|].
  intros i j x s b Hx Es Eb. destruct HD as [_ HD]. destruct (HD i j x Hx) as (v & Hv & s' & b' & Es' & Eb' & ->). rewrite Es in Es'. injection Es' as <-. rewrite Eb in Eb'. injection Eb' as <-.
  destruct (H i j x s b Hx Es Eb) as (Fx & Fs & Fb & B). eexists. split; [exact Hv|]. apply (affine_cell x s b Fx Fs Fb B).
Qed.
Print Assumptions C29_minmax_accuracy_float.

(** What is left of the range claim (C29_range_refuted) on doubles: with the scale
    and offset fit computes, a value of the data range lands in the target range
    up to a few units in the last place, and near the point it should land on. *)
Theorem C29_range_float : forall (m : libm) (lo hi a z scale mn : list (F64 m)) (M : list (list (F64 m))) r c,
  rect M r c -> 1 <= r -> length scale = c -> length mn = c -> length lo = c -> length hi = c -> length a = c -> length z = c ->
  (forall j l h p q s b, nth_error lo j = Some l -> nth_error hi j = Some h -> nth_error a j = Some p -> nth_error z j = Some q ->
     nth_error scale j = Some s -> nth_error mn j = Some b -> sound_range l h p q /\ fit_column l h p q s b) ->
  (forall i j x p q, cell M i j = Some x -> nth_error a j = Some p -> nth_error z j = Some q -> is_finite x = true /\ (real p <= real x <= real q)%R) ->
  exists D, minmax_transform {| mm_scale := Some scale; mm_min := Some mn |} (ll M) = Ok (ll D) /\ rect D r c /\
    forall i j x l h p q, cell M i j = Some x -> nth_error lo j = Some l -> nth_error hi j = Some h -> nth_error a j = Some p -> nth_error z j = Some q ->
      exists v, cell D i j = Some v /\ is_finite v = true /\ let e := range_slack (real l) (real h) (real p) (real q) in
        (real l - e <= real v <= real h + e)%R /\
        (Rabs (real v - (real l + (real x - real p) * ((real h - real l) / (real q - real p)))) <= e)%R.
Proof.
  intros m lo hi a z scale mn M r c RM Hr LS LB L1 L2 L3 L4 HF HX. destruct (C29_minmax m scale mn M r c RM Hr LS LB) as (D & E & HD & _). exists D. split; auto. split; [apply HD|].
  intros i j x l h p q Hx El Eh Ep Eq. destruct HD as [_ HD]. destruct (HD i j x Hx) as (v & Hv & s & b & Es & Eb & ->).
  destruct (HF j l h p q s b El Eh Ep Eq Es Eb) as ((FA & LH & LG) & ED & EB). destruct (HX i j x p q Hx Ep Eq) as [Fx RX].
  inversion FA as [|? ? [Fl Bl] FA1]; subst. inversion FA1 as [|? ? [Fh Bh] FA2]; subst. inversion FA2 as [|? ? [Fp Bp] FA3]; subst. inversion FA3 as [|? ? [Fq Bq] _]; subst.
  eexists. split; [exact Hv|]. destruct (range_cell l h p q s x Fl Fh Fp Fq Fx Bl Bh Bp Bq LH LG ED RX) as [Fv Cv]. split; [exact Fv|]. cbv zeta. split; [|exact Cv].
  apply abs_bound in Cv. assert (G : (0 < real q - real p)%R) by (pose proof (bpow_gt_0 radix2 (-300)); lra).
  assert (T : (0 <= (real x - real p) * ((real h - real l) / (real q - real p)) <= real h - real l)%R).
  { assert (S0 : (0 <= (real h - real l) / (real q - real p))%R) by (apply Rmult_le_pos; [lra|left; apply Rinv_0_lt_compat; auto]). split; [apply Rmult_le_pos; lra|].
    apply Rle_trans with ((real q - real p) * ((real h - real l) / (real q - real p)))%R; [apply Rmult_le_compat_r; lra|]. right. field. lra. }
  change (num (F64 m)) with f64 in *. change (@add (F64 m) (@mul (F64 m) x s) (f_sub l (f_mul p s))) with (f_add (f_mul x s) (f_sub l (f_mul p s))). lra.
Qed.
Print Assumptions C29_range_float.

(** The hypotheses hold for the very data that C29_range_refuted uses: the value
    -19 of the data range [-30, -19] lands above 1, but by less than 10^-13. *)
Lemma ex_range_sound : sound_range (f_ofZE 0 0) (f_ofZE 1 0) (f_ofZE (-30) 0) (f_ofZE (-19) 0).
Proof.
  assert (B : (1024 <= bpow radix2 300)%R) by (change 1024%R with (bpow radix2 10); apply bpow_le; lia).
  assert (S : (bpow radix2 (-300) <= 1)%R) by (change 1%R with (bpow radix2 0); apply bpow_le; lia).
  split; [|split]; [repeat constructor; try (apply real_ofZ; cbn; lia)|..]; ints; lra.
Qed.
Example C29_range_float_ex : forall m : libm, exists (s b v : F64 m), fit_column (f_ofZE 0 0) (f_ofZE 1 0) (f_ofZE (-30) 0) (f_ofZE (-19) 0) s b /\ minmax_transform {| mm_scale := Some [s]; mm_min := Some [b] |} (ll [[ofZ (-19) : F64 m]]) = Ok (ll [[v]]) /\ ltb one v = true /\ (real v <= 1 + 64 * ulp1)%R.
Proof.
  intro m. assert (G : match f_div (f_sub (f_ofZE 1 0) (f_ofZE 0 0)) (f_sub (f_ofZE (-19) 0) (f_ofZE (-30) 0)) with Ok s => f_ltb (f_ofZE 1 0) (f_add (f_mul (f_ofZE (-19) 0) s) (f_sub (f_ofZE 0 0) (f_mul (f_ofZE (-30) 0) s))) | Err _ => false end = true) by (vm_compute; reflexivity).
  destruct (f_div _ _) as [s|] eqn:E; [|discriminate]. set (b := f_sub (f_ofZE 0 0) (f_mul (f_ofZE (-30) 0) s)) in *.
  exists s, b, (f_add (f_mul (f_ofZE (-19) 0) s) b). split; [split; auto|]. split; [reflexivity|]. split; [exact G|].
  destruct (C29_range_float m [f_ofZE 0 0] [f_ofZE 1 0] [f_ofZE (-30) 0] [f_ofZE (-19) 0] [s] [b] [[f_ofZE (-19) 0]] 1 1) as (D & ED & _ & HD); try reflexivity; try (split; [reflexivity|repeat constructor]).
  - intros [|j] l h p q s' b' H1 H2 H3 H4 H5 H6; [|destruct j; discriminate]. injection H1 as <-. injection H2 as <-. injection H3 as <-. injection H4 as <-. injection H5 as <-. injection H6 as <-.
    split; [apply ex_range_sound|split; auto].
  - intros [|i] [|j] x p q H1 H2 H3; try (destruct i; discriminate); try (destruct j; discriminate). injection H1 as <-. injection H2 as <-. injection H3 as <-. split; [apply real_ofZ; cbn; lia|]. ints. lra.
  - assert (ED' : minmax_transform {| mm_scale := Some [s : F64 m]; mm_min := Some [b : F64 m] |} (ll [[f_ofZE (-19) 0 : F64 m]]) = Ok (ll [[f_add (f_mul (f_ofZE (-19) 0) s) b : F64 m]])) by reflexivity.
    pose proof (eq_trans (eq_sym ED') ED) as ED2. clear ED ED'. injection ED2 as ED. destruct D as [|[|y [|]] [|]]; try discriminate. injection ED as <-.
    destruct (HD 0 0 (f_ofZE (-19) 0) (f_ofZE 0 0) (f_ofZE 1 0) (f_ofZE (-30) 0) (f_ofZE (-19) 0) eq_refl eq_refl eq_refl eq_refl eq_refl) as (v & Hv & _ & [_ H] & _). injection Hv as <-.
    eapply Rle_trans; [exact H|]. unfold range_slack.
    assert (RM : Rmax (Rabs (real (f_ofZE (-30) 0))) (Rabs (real (f_ofZE (-19) 0))) = 30%R) by (ints; apply Rmax_left; lra). rewrite RM. ints.
    assert (T : (tiny <= ulp1 * / 1024)%R) by (change (/ 1024)%R with (bpow radix2 (-10)); unfold tiny, ulp1; rewrite <- bpow_plus; apply bpow_le; lia). pose proof ulp1_small. lra.
Qed.

(** C42.  Tf-idf: every weight is count * idf up to one unit in the last place. *)
Theorem C42_accuracy_float_partial : forall (m : libm) (t : tfidf (F64 m)) rows dt (M : list (list (F64 m))) r c,
  rect M r c -> 1 <= r -> Forall2 stores rows M -> tf_norm t = None ->
  tf_sublinear t = false -> tf_use_idf t = true -> tf_expected t = Z.of_nat c -> length (tf_idf t) = c ->
  Forall (Forall (fun x : f64 => is_finite x = true)) M -> Forall (fun x : f64 => is_finite x = true) (tf_idf t) ->
  (forall i j x w, cell M i j = Some x -> nth_error (tf_idf t) j = Some w -> sized_prod (real x * real w)) ->
  exists D rows', fst (tfidf_transform t (Sp rows (Some (Z.of_nat c)) dt)) = Ok (Sp rows' (Some (Z.of_nat c)) dt) /\ Forall2 stores rows' D /\ rect D r c /\
    forall i j x w, cell M i j = Some x -> nth_error (tf_idf t) j = Some w ->
      exists v, cell D i j = Some v /\ is_finite v = true /\ (Rabs (real v - real x * real w) <= ulp1 * Rabs (real x * real w))%R.
Proof.
  intros m t rows dt M r c RM Hr ST HN HS HI HE HL FM FW SP.
  destruct (C42_partial m t rows dt M r c RM Hr ST HS HI HE HL) as (D & rows' & HD & S1 & _ & E1); [eapply Forall_impl; [|exact FW]; intros x Hx; apply f_finite_iff; exact Hx|].
  rewrite HN in E1. exists D, rows'. split; auto. split; auto. split; [apply HD|]. intros i j x w Hx Hw. destruct HD as [_ HD]. destruct (HD i j x Hx) as (v & Hv & w' & Hw' & ->). rewrite Hw in Hw'. injection Hw' as <-.
  eexists. split; [exact Hv|]. apply mul_rel; [| |apply (SP i j x w Hx Hw)].
  - unfold cell in Hx. destruct (nth_error M i) as [row|] eqn:Er; [|discriminate]. rewrite Forall_forall in FM. specialize (FM row (nth_error_In _ _ Er)). rewrite Forall_forall in FM. eapply FM, nth_error_In; eauto.
  - rewrite Forall_forall in FW. eapply FW, nth_error_In; eauto.
Qed.
Print Assumptions C42_accuracy_float_partial.

Lemma weights_row : forall (m : libm) (row idf w : list (F64 m)), length row = length idf -> length w = length row ->
  (forall j x, nth_error row j = Some x -> exists v, nth_error w j = Some v /\ weighted idf j x v) -> w = map (fun p => f_mul (fst p) (snd p)) (combine row idf).
Proof.
  intros m row. induction row as [|x row IH]; intros idf w L1 L2 H; [destruct w; [reflexivity|discriminate]|].
  destruct idf as [|y idf]; [discriminate|]. destruct w as [|v w]; [discriminate|]. cbn [combine map fst snd].
  destruct (H 0 x eq_refl) as (v' & E1 & w' & E2 & E3). injection E1 as <-. injection E2 as <-. f_equal; [exact E3|].
  apply IH; auto. intros j a Ha. exact (H (S j) a Ha).
Qed.

(** With norm="l2", every entry is the exact tf-idf weight divided by the exact
    Euclidean norm of its row (0 / 0 = 0 for rows of zeros), up to an error that
    grows with the number of columns. *)
Theorem C42_l2_accuracy_float_partial : forall (m : libm) (t : tfidf (F64 m)) rows dt (M : list (list (F64 m))) r c,
  rect M r c -> 1 <= r -> (Z.of_nat c <= 2 ^ 46)%Z -> Forall2 stores_sorted rows M -> tf_norm t = Some (lit "l2") ->
  tf_sublinear t = false -> tf_use_idf t = true -> tf_expected t = Z.of_nat c -> length (tf_idf t) = c ->
  Forall (Forall (fun x : f64 => is_finite x = true)) M -> Forall (fun x : f64 => is_finite x = true) (tf_idf t) ->
  Forall (fun row => Forall sized_prod (exact_weights row (tf_idf t))) M ->
  exists D rows', fst (tfidf_transform t (Sp rows (Some (Z.of_nat c)) dt)) = Ok (Sp rows' (Some (Z.of_nat c)) dt) /\ Forall2 stores rows' D /\ rect D r c /\
    Forall2 (fun row d => Forall2 (fun a v => is_finite v = true /\
       (Rabs (real v - a / Rl2 (exact_weights row (tf_idf t))) <= (2 * INR c + 11) * ulp1 * Rabs (a / Rl2 (exact_weights row (tf_idf t))) + tiny)%R)
      (exact_weights row (tf_idf t)) d) M D.
Proof.
  intros m t rows dt M r c RM Hr LC ST HN HS HI HE HL FM FW SP.
  assert (FM' : Forall (Forall finite) M) by (eapply Forall_impl; [|exact FM]; intros row Hrow; eapply Forall_impl; [|exact Hrow]; intros x Hx; apply f_finite_iff; exact Hx).
  assert (FW' : Forall finite (tf_idf t)) by (eapply Forall_impl; [|exact FW]; intros x Hx; apply f_finite_iff; exact Hx).
  destruct (C42_normalised_partial m t (lit "l2") rows dt M r c RM Hr ST FM' HS HI HE HL FW' HN (or_intror eq_refl)) as (W & D & rows' & HW & ED & ET & SD).
  set (idf := tf_idf t) in *.
  assert (RW : Forall2 (fun row w => w = map (fun p => f_mul (fst p) (snd p)) (combine row idf)) M W).
  { destruct HW as [[L1 L2] HW]. destruct RM as [R1 R2]. apply Forall2_nth_error. split; [exact (eq_trans R1 (eq_sym L1))|]. intros i row w Hrow Hw. change (@nth_error (list (F64 m)) M i = Some row) in Hrow. change (@nth_error (list (F64 m)) W i = Some w) in Hw. rewrite Forall_forall in L2, R2.
    pose proof (L2 w (nth_error_In _ _ Hw)) as Lw. pose proof (R2 row (nth_error_In _ _ Hrow)) as Lr.
    apply (weights_row m); [exact (eq_trans Lr (eq_sym HL))|exact (eq_trans Lw (eq_sym Lr))|]. intros j x Hx. destruct (HW i j x) as (v & Hv & Wv); [unfold cell; rewrite Hrow; exact Hx|]. unfold cell in Hv. rewrite Hw in Hv. eauto. }
  assert (REL : Forall2 (fun row w => all_finite w /\ Forall2 (rel ulp1) (reals w) (exact_weights row idf) /\ well_scaled (reals w) /\ length (exact_weights row idf) = c) M W).
  { destruct RM as [_ R2]. clear - RW FM FW SP R2 HL LC. induction RW as [|row w M W E RW IH]; constructor; inversion FM as [|? ? Fr FM']; inversion SP as [|? ? Sr SP']; inversion R2 as [|? ? Lr R2']; subst; auto.
    assert (LE : length (exact_weights row idf) = length row) by (unfold exact_weights; rewrite map_length, combine_length; change (num (F64 m)) with f64 in *; lia).
    assert (X : all_finite (map (fun p => f_mul (fst p) (snd p)) (combine row idf)) /\ Forall2 (rel ulp1) (reals (map (fun p => f_mul (fst p) (snd p)) (combine row idf))) (exact_weights row idf)).
    { unfold exact_weights, reals in *. rewrite map_map. clear - Fr FW Sr. revert Sr. generalize idf FW. clear FW. intros l FW. revert l FW. induction Fr as [|x row Fx Fr IH]; intros l FW Sr; [repeat constructor|]. destruct FW as [|y l Fy FW]; [repeat constructor|].
      cbn [combine map fst snd] in *. pose proof (Forall_inv Sr) as S1. pose proof (Forall_inv_tail Sr) as S2. cbn [fst snd] in S1. destruct (mul_rel x y Fx Fy S1) as [F1 C1]. destruct (IH l FW S2) as [A1 A2]. split; constructor; auto. }
    destruct X as [X1 X2]. split; [exact X1|]. split; [exact X2|]. change (num (F64 m)) with f64 in *. split; [apply (prods_scaled _ _ ltac:(rewrite LE, Lr; exact LC) X2 Sr)|]. lia. }
  assert (US : Forall usable W).
  { destruct HW as [[_ L2] _]. clear - REL L2 LC. induction REL as [|row w M W (F1 & _ & F3 & _) REL IH]; constructor; inversion L2; subst; auto. split; auto. }
  destruct (C30_l2_accuracy_float m W r c (proj1 HW) Hr US) as (D' & ED' & AC). assert (D' = D) by (rewrite ED in ED'; injection ED' as E; apply ll_inj; unfold ll; f_equal; symmetry; exact E). subst D'.
  exists D, rows'. split; auto. split; auto.
  assert (LD : Forall2 (fun w d => length d = length w) W D) by (eapply Forall2_imp; [|exact AC]; intros w d H; apply Forall2_len in H; symmetry; exact H).
  split.
  { destruct HW as [[L1 L2] _]. split; [apply Forall2_len in LD; change (num (F64 m)) with f64 in *; lia|]. clear - L2 LD. induction LD as [|w d W D E LD IH]; constructor; inversion L2; subst; auto. }
  clear ED ED' ET SD LD ST RW US FM' FW'. destruct HW as [[_ L2] _]. clear - REL AC L2 LC. revert D AC. induction REL as [|row w M W (F1 & F2 & _ & _) REL IH]; intros D AC; inversion AC as [|? d ? D' A1 A2]; subst; constructor; [|apply IH; auto; inversion L2; auto].
  clear IH A2 REL AC. pose proof (Forall_inv L2) as Lw. cbv beta in Lw. clear L2. change (num (F64 m)) with f64 in *. set (N := Rl2 (exact_weights row idf)). set (Lw' := Rl2 (reals w)) in *.
  assert (U8 : (0 <= ulp1 <= / 8)%R) by (pose proof ulp1_small; lra).
  assert (RU : forall x y, rel ulp1 x y -> rel (3 * ulp1) (x / Lw') (y / N)) by (intros x y Hxy; apply rel_unit; auto).
  rewrite Lw in A1. set (E := ((2 * INR c + 7) * ulp1)%R) in *.
  assert (EB : (0 <= E <= / 16)%R).
  { unfold E. pose proof (pos_INR c) as PC. assert (CB : (INR c <= bpow radix2 46)%R) by (apply INR_le_bpow; [lia|auto]). split; [apply Rmult_le_pos; lra|].
    apply Rle_trans with ((2 * bpow radix2 46 + 7) * ulp1)%R; [apply Rmult_le_compat_r; lra|].
    assert (Q : (bpow radix2 46 * ulp1 = / 64)%R) by (unfold ulp1; rewrite <- bpow_plus; reflexivity). assert (Q2 : (ulp1 <= / 1024)%R) by (apply ulp1_small). lra. }
  clearbody N Lw'. generalize dependent d. generalize dependent (exact_weights row idf). intros ex F2. clear Lw. unfold reals in F2. revert ex F2.
  induction w as [|x w IH]; intros ex F2 d A1; inversion A1 as [|? v ? d' [Fv Cv] A2]; subst; cbn [map] in F2; inversion F2 as [|? a ? ex' R1 F3]; subst; [constructor|]. constructor; [|inversion F1; subst; apply IH; auto].
  split; auto. specialize (RU (real x) a R1). unfold rel in RU. set (q' := (real x / Lw')%R) in *. set (q := (a / N)%R) in *.
  assert (Q1 : (Rabs q' <= (1 + 3 * ulp1) * Rabs q)%R). { replace q' with (q' - q + q)%R by ring. eapply Rle_trans; [apply Rabs_triang|]. lra. }
  replace (real v - q)%R with ((real v - q') + (q' - q))%R by ring. eapply Rle_trans; [apply Rabs_triang|].
  replace ((2 * INR c + 11) * ulp1 * Rabs q)%R with (E * Rabs q + 4 * ulp1 * Rabs q)%R by (unfold E; ring).
  assert (Q2 : (E * Rabs q' <= E * ((1 + 3 * ulp1) * Rabs q))%R) by (apply Rmult_le_compat_l; lra).
  pose proof (Rabs_pos q) as PQ. assert (Q3 : (E * (3 * ulp1 * Rabs q) <= / 16 * (3 * ulp1 * Rabs q))%R) by (apply Rmult_le_compat_r; [apply Rmult_le_pos; lra|lra]).
  assert (PU : (0 <= ulp1 * Rabs q)%R) by (apply Rmult_le_pos; lra). lra.
Qed.
Print Assumptions C42_l2_accuracy_float_partial.

(** Concrete instances: one document with counts 1 and 2, weights 2 and 3. *)
Lemma sized_int : forall a b, (Z.abs a <= 1024)%Z -> (Z.abs b <= 1024)%Z -> (a * b <> 0)%Z -> sized_prod (real (f_ofZE a 0) * real (f_ofZE b 0)).
Proof.
  intros a b Ha Hb N. right. rewrite (proj1 (real_ofZ a ltac:(cbn; lia))), (proj1 (real_ofZ b ltac:(cbn; lia))), <- mult_IZR, <- abs_IZR.
  assert (1 <= IZR (Z.abs (a * b)) <= IZR 1048576)%R by (split; apply IZR_le; nia).
  assert (bpow radix2 (-400) <= 1)%R by (change 1%R with (bpow radix2 0); apply bpow_le; lia).
  assert (IZR 1048576 <= bpow radix2 400)%R by (change (IZR 1048576) with (bpow radix2 20); apply bpow_le; lia). lra.
Qed.
Example C42_accuracy_ex : forall m : libm, exists D rows',
  fst (tfidf_transform (ex_tfidf m (Some (lit "l2"))) (Sp [[(0%Z, ofZ 1); (1%Z, ofZ 2)]] (Some 2%Z) DFloat)) = Ok (Sp rows' (Some 2%Z) DFloat) /\ Forall2 stores rows' D /\
  exists a b, D = [[a; b]] /\ (Rabs (real a - 2 / sqrt 40) <= 16 * ulp1)%R /\ (Rabs (real b - 6 / sqrt 40) <= 16 * ulp1)%R.
Proof.
  intro m. assert (FI : forall n, (Z.abs n <= 2 ^ 53)%Z -> is_finite (f_ofZE n 0) = true) by (intros; apply real_ofZ; auto).
  destruct (C42_l2_accuracy_float_partial m (ex_tfidf m (Some (lit "l2"))) [[(0%Z, ofZ 1); (1%Z, ofZ 2)]] DFloat [[ofZ 1; ofZ 2]] 1 2) as (D & rows' & E & SD & RD & AC); try reflexivity; try lia.
  - split; [reflexivity|repeat constructor].
  - constructor; [|constructor]. split; [|repeat constructor]. split; [repeat constructor; cbn; intuition discriminate|]. split.
    + intros k Hk. cbn in Hk. cbn. lia.
    + intros [|[|j]] v Hv; [injection Hv as <-; left; eexists; split; [left; reflexivity|reflexivity]|injection Hv as <-; left; eexists; split; [right; left; reflexivity|reflexivity]|destruct j; discriminate].
  - repeat constructor; apply FI; cbn; lia.
  - repeat constructor; apply FI; cbn; lia.
  - constructor; [|constructor]. unfold exact_weights. cbn [ex_tfidf tf_idf combine map fst snd]. constructor; [apply sized_int; lia|]. constructor; [apply sized_int; lia|constructor].
  - exists D, rows'. split; [exact E|]. split; [exact SD|]. inversion AC as [|? d ? ? A1 A2]; subst. inversion A2; subst.
    assert (W1 : exact_weights [f_ofZE 1 0; f_ofZE 2 0] [f_ofZE 2 0; f_ofZE 3 0] = [2; 6]%R).
    { unfold exact_weights. cbn [combine map fst snd]. ints. repeat f_equal; ring. }
    match type of A1 with Forall2 _ ?ex _ => change ex with (exact_weights [f_ofZE 1 0; f_ofZE 2 0] [f_ofZE 2 0; f_ofZE 3 0]) in A1 end. rewrite W1 in A1. clear W1.
    assert (N : Rl2 [2; 6]%R = sqrt 40) by (unfold Rl2; cbn [Rdot]; f_equal; ring). rewrite N in A1.
    inversion A1 as [|? a ? ? [Fa Ca] A3]; subst. inversion A3 as [|? b ? ? [Fb Cb] A4]; subst. inversion A4; subst. exists a, b. split; [reflexivity|].
    assert (S6 : (6 < sqrt 40)%R). { rewrite <- (sqrt_square 6) by lra. apply sqrt_lt_1_alt. lra. }
    assert (Q : forall q, (0 <= q <= 6)%R -> (Rabs (q / sqrt 40) <= 1)%R).
    { intros q Hq. rewrite Rabs_pos_eq by (apply Rmult_le_pos; [lra|left; apply Rinv_0_lt_compat; lra]). apply Rmult_le_reg_r with (sqrt 40); [lra|]. unfold Rdiv. rewrite Rmult_assoc, Rinv_l by lra. lra. }
    pose proof (Q 2%R ltac:(lra)) as Q1. pose proof (Q 6%R ltac:(lra)) as Q2.
    assert (T : (tiny <= ulp1)%R) by (unfold tiny, ulp1; apply bpow_le; lia). pose proof ulp1_small. cbn [INR] in Ca, Cb.
    assert (0 <= ulp1)%R by lra. split; [apply (Rle_trans _ _ _ Ca)|apply (Rle_trans _ _ _ Cb)]; nra.
Qed.

(** StandardScaler with mean 1 and scale 3, MaxAbsScaler with scale 3. *)
Example C28_accuracy_ex : forall m : libm, exists v w : F64 m,
  std_transform {| ss_mean_on := true; ss_std_on := true; ss_scale := Some [ofZ 3]; ss_mean := Some [ofZ 1] |} (ll [[ofZ 2]]) = Ok (ll [[v]]) /\
  maxabs_transform (Some [ofZ 3]) (ll [[ofZ 2]]) = Ok (ll [[w]]) /\ (Rabs (real v - 1 / 3) <= 2 * ulp1)%R /\ (Rabs (real w - 2 / 3) <= 2 * ulp1)%R.
Proof.
  intro m. assert (FI : forall n, (Z.abs n <= 2 ^ 53)%Z -> is_finite (f_ofZE n 0) = true) by (intros; apply real_ofZ; auto). pose proof huge_large as HL.
  assert (B9 : (1024 <= bpow radix2 990)%R) by (change 1024%R with (bpow radix2 10); apply bpow_le; lia).
  assert (Q : forall a b : R, (b <> 0 -> Rabs (a / b) <= Rabs a * / Rabs b)%R) by (intros a b Nb; unfold Rdiv; rewrite Rabs_mult, Rabs_inv; lra).
  assert (T : (tiny <= ulp1 * / 1024)%R) by (change (/ 1024)%R with (bpow radix2 (-10)); unfold tiny, ulp1; rewrite <- bpow_plus; apply bpow_le; lia). pose proof ulp1_small as US.
  destruct (C28_accuracy_float m [ofZ 1] [ofZ 3] [[ofZ 2]] 1 1) as (D & ED & [RD1 RD2] & HD); try lia; try reflexivity; [split; [reflexivity|repeat constructor]|..].
  { intros [|i] [|j] x t s Hx Ht Hs; try (destruct i; discriminate); try (destruct j; discriminate). injection Hx as <-. injection Ht as <-. injection Hs as <-.
    change (@ofZ (F64 m)) with (fun n => f_ofZE n 0). cbv beta. split; [apply FI; cbn; lia|]. split; [apply FI; cbn; lia|]. split; [apply FI; cbn; lia|]. ints. split; [lra|]. split; [lra|].
    replace ((2 - 1) / 3)%R with (1 / 3)%R by (f_equal; ring). rewrite Rabs_pos_eq; lra. }
  destruct (C29_maxabs_accuracy_float m [ofZ 3] [[ofZ 2]] 1 1) as (W & EW & [RW1 RW2] & HW); try lia; try reflexivity; [split; [reflexivity|repeat constructor]|..].
  { intros [|i] [|j] x s Hx Hs; try (destruct i; discriminate); try (destruct j; discriminate). injection Hx as <-. injection Hs as <-.
    change (@ofZ (F64 m)) with (fun n => f_ofZE n 0). cbv beta. split; [apply FI; cbn; lia|]. split; [apply FI; cbn; lia|]. ints. split; [lra|]. rewrite Rabs_pos_eq; lra. }
  destruct (HD 0 0 (ofZ 2) (ofZ 1) (ofZ 3) eq_refl eq_refl eq_refl) as (v & Hv & _ & Cv). destruct (HW 0 0 (ofZ 2) (ofZ 3) eq_refl eq_refl) as (w & Hw & _ & Cw).
  destruct D as [|[|v' [|]] [|]]; try discriminate; try (exfalso; inversion RD2; discriminate). injection Hv as ->. destruct W as [|[|w' [|]] [|]]; try discriminate; try (exfalso; inversion RW2; discriminate). injection Hw as ->.
  exists v, w. split; auto. split; auto. change (@ofZ (F64 m)) with (fun n => f_ofZE n 0) in Cv, Cw. cbv beta in Cv, Cw.
  repeat match type of Cv with context [real (f_ofZE ?n 0)] => rewrite (proj1 (real_ofZ n ltac:(cbn; lia))) in Cv end.
  repeat match type of Cw with context [real (f_ofZE ?n 0)] => rewrite (proj1 (real_ofZ n ltac:(cbn; lia))) in Cw end.
  replace ((2 - 1) / 3)%R with (1 / 3)%R in Cv by (f_equal; ring). rewrite (Rabs_pos_eq (1 / 3)) in Cv by lra. rewrite (Rabs_pos_eq (2 / 3)) in Cw by lra. split; lra.
Qed.
