(** C54-C58: fastText. *)
From Coq Require Import String Reals Lia Lra.
From Flocq Require Import Core BinarySingleNaN.
From Verif Require Import Model.Py Model.Arith Model.F64 Model.XR Model.Utils Model.Base Model.Text Model.FastText.
From Verif Require Import Spec.Matrix Spec.Reals Spec.Libm Spec.Scaling Spec.Text Spec.FastText.
From Verif Require Import Proofs.Lib Proofs.Laws Proofs.Round Proofs.Unit Proofs.Arrays Proofs.RealLib Proofs.CRLibm Proofs.Scaling Proofs.Text Proofs.FastText Proofs.Pairwise.
From Verif Require Import Props.Text.
Local Open Scope nat_scope.

(** C54.  The id is the first position of the word, or -1. *)
Theorem C54_id : forall (A : arith) (f : fasttext A) w,
  (forall i, position w (f_words f) i -> get_word_id f w = Z.of_nat i) /\
  (~ In w (f_words f) -> get_word_id f w = (-1)%Z) /\
  (In w (f_words f) -> exists i, position w (f_words f) i).
Proof.
  intros A f w. split; [apply word_id|]. unfold get_word_id. pose proof (index_position w (f_words f)) as Q. destruct (index_of str_eqb w (f_words f)) as [i|]; split; intro H; try contradiction; eauto.
  destruct H. eapply position_In; eauto.
Qed.
Print Assumptions C54_id.
Theorem C54_vector : forall (A : arith) (f : fasttext A) w, length (f_words f) <= length (f_input f) ->
  (forall i, position w (f_words f) i -> exists v, nth_error (f_input f) i = Some v /\ get_word_vector f w = Ok v) /\
  (~ In w (f_words f) -> get_word_vector f w = Ok (repeat zero (Z.to_nat (f_dim f)))).
Proof.
  intros A f w L. split.
  - intros i P. destruct (nth_error (f_input f) i) as [v|] eqn:E; [exists v; split; auto; apply word_vector; exists i; auto|].
    apply nth_error_None in E. destruct P as [P _]. assert (i < length (f_words f)) by (apply nth_error_Some; congruence). lia.
  - intro H. unfold get_word_vector. rewrite (proj1 (proj2 (C54_id A f w)) H). reflexivity.
Qed.
Print Assumptions C54_vector.
Theorem C54_input : forall (A : arith) (f : fasttext A) i v, nth_error (f_input f) i = Some v -> get_input_vector f (Z.of_nat i) = Ok v.
Proof.
  intros A f i v E. unfold get_input_vector, lget. assert (i < length (f_input f)) by (apply nth_error_Some; congruence).
  destruct (Z.ltb_spec (Z.of_nat i) 0); [lia|]. destruct (Z.leb_spec 0 (Z.of_nat i)), (Z.ltb_spec (Z.of_nat i) (Z.of_nat (length (f_input f)))); try lia. cbn [andb].
  unfold lnth. rewrite Nat2Z.id, E. auto.
Qed.
Print Assumptions C54_input.
(** A converted model has the words and the matrix of the source model. *)
Theorem C54_converted : forall (A : arith) (s : ft_src A) f, ft_convert s = Ok f ->
  f_words f = fs_words s /\ f_input f = fs_input s /\ f_dim f = fs_dim s /\
  forall loss labels output, f_sup f = Some (loss, labels, output) -> loss = fs_loss s /\ labels = fs_labels s /\ output = fs_output s.
Proof.
  intros A s f H. unfold ft_convert in H. inv_bind H. inv_bind H. inv_bind H. injection H as <-. cbn [f_words f_input f_dim f_sup]. repeat split; auto; destruct (str_in (fs_label s) a); congruence.
Qed.
Print Assumptions C54_converted.
Definition ex_ft {A : arith} : fasttext A :=
  {| f_words := [lit "cat"; lit "dog"; lit "cat"; lit "</s>"]; f_dim := 2; f_input := [[ofZ 1; ofZ 2]; [ofZ 3; ofZ 5]; [ofZ 7; ofZ 7]; [ofZ 2; ofZ 2]];
     f_sup := Some (lit "softmax", [lit "a"; lit "b"; lit "c"], [[ofZ 1; ofZ 0]; [ofZ 0; ofZ 1]; [ofZ 1; ofZ 0]]) |}.
Example C54_ex : forall m : libm, position (lit "cat") (f_words (ex_ft (A:=F64 m))) 0 /\ get_word_id (ex_ft (A:=F64 m)) (lit "dog") = 1%Z /\
  get_word_vector (ex_ft (A:=F64 m)) (lit "cow") = Ok [zero; zero].
Proof. intro m. split; [split; [reflexivity|intros; lia]|]. split; reflexivity. Qed.

(** C55.  With at least one known word: the mean of the vectors (of the unit
    vectors when unsupervised).  Partial: without known words see
    [C55_unknown_refuted]. *)
Theorem C55_partial : forall (A : arith) (U : textlib) (f : fasttext A) text ws ks vs R dim,
  x_space U 10 = true -> ~ In 10%Z text -> words (x_space U) text ws ->
  restricted (f_words f) (ws ++ match f_sup f with Some _ => [lit "</s>"] | None => [] end) ks -> ks <> [] ->
  rect (f_input f) R dim -> Forall2 (vector_of (f_words f) (f_input f)) ks vs -> forall out,
  get_sentence_vector U f text = Ok out <->
  match f_sup f with
  | Some _ => averaged vs dim out
  | None => exists us, Forall2 unit_row vs us /\ averaged us dim out
  end.
Proof.
  intros A U f text ws ks vs R dim HS HN HW HR NK RI HV out. unfold get_sentence_vector.
  assert (G : negb (mem Z.eqb 10%Z text) = true). { apply negb_true_iff. apply (mem_false Z.eqb Z.eqb_eq). auto. } rewrite G. cbn [guard bind].
  unfold str_split. rewrite split_trailing by auto. apply words_fun in HW. fold (str_split U text). rewrite <- HW.
  assert (RV : rect vs (length ks) dim).
  { split; [symmetry; eapply Forall2_len; eauto|]. apply Forall_forall. intros v Hv. apply In_nth_error in Hv. destruct Hv as [j Hj]. apply Forall2_nth_error in HV. destruct HV as [LV HV].
    destruct (nth_error_len ks vs j v LV Hj) as [w Hw]. destruct (HV j w v Hw Hj) as (i & _ & Ei). eapply rect_row; eauto. eapply nth_error_In; eauto. }
  assert (LK : 1 <= length ks) by (destruct ks; [congruence|cbn; lia]).
  assert (EV : mapM (get_word_vector f) ks = Ok vs). { apply mapM_Forall2. eapply Forall2_imp; [|exact HV]. intros w v. apply word_vector. }
  apply restricted_filter in HR. destruct (f_sup f) as [sp|].
  - change EOS with (lit "</s>"). rewrite HR, EV. cbn [bind]. apply (average_iff vs (length ks) dim out RV LK).
  - rewrite app_nil_r in HR. rewrite HR, EV. cbn [bind]. split.
    + intro H. inv_bind H. apply mapM_Forall2 in E. exists a.
      assert (FU : Forall2 unit_row vs a) by (eapply Forall2_imp; [|exact E]; intros v u; apply div_norm_iff). split; auto.
      apply (average_iff a (length ks) dim out); auto. destruct RV as [LV RV]. split; [rewrite <- (Forall2_len _ _ _ FU); auto|].
      clear -FU RV. induction FU as [|v u vs us Q F IH]; constructor; inversion RV; subst; auto. destruct Q as (n & _ & Q1 & Q2). destruct (ltb zero n); [destruct (Q1 eq_refl) as (r & _ & ->); apply map_length|rewrite Q2; auto].
    + intros (us & FU & HA). assert (EU : mapM div_norm vs = Ok us) by (apply mapM_Forall2; eapply Forall2_imp; [|exact FU]; intros v u; apply div_norm_iff). rewrite EU. cbn [bind].
      apply (average_iff us (length ks) dim out); auto. destruct RV as [LV RV]. split; [rewrite <- (Forall2_len _ _ _ FU); auto|].
      clear -FU RV. induction FU as [|v u vs us Q F IH]; constructor; inversion RV; subst; auto. destruct Q as (n & _ & Q1 & Q2). destruct (ltb zero n); [destruct (Q1 eq_refl) as (r & _ & ->); apply map_length|rewrite Q2; auto].
Qed.
Print Assumptions C55_partial.
(** Every text has words, and known words have vectors. *)
Theorem C55_defined : forall (A : arith) (U : textlib) (f : fasttext A) text, length (f_words f) <= length (f_input f) ->
  exists ws ks vs, words (x_space U) text ws /\
    restricted (f_words f) (ws ++ match f_sup f with Some _ => [lit "</s>"] | None => [] end) ks /\ Forall2 (vector_of (f_words f) (f_input f)) ks vs.
Proof.
  intros A U f text L. set (extra := match f_sup f with Some _ => [lit "</s>"] | None => [] end). exists (str_split U text).
  pose proof (restricted_filter' (f_words f) (str_split U text ++ extra)) as HR. revert HR. generalize (filter (fun w => mem str_eqb w (f_words f)) (str_split U text ++ extra)). intros ks HR.
  assert (IK : Forall (fun w => In w (f_words f)) ks) by (clear -HR; induction HR; auto).
  assert (HV : exists vs, Forall2 (vector_of (f_words f) (f_input f)) ks vs).
  { clear HR. induction IK as [|w ks I IK (vs & IH)]; [exists []; constructor|]. destruct (proj2 (proj2 (C54_id A f w)) I) as [i Hi].
    destruct (proj1 (C54_vector A f w L) i Hi) as (v & Ev & _). exists (v :: vs). constructor; auto. exists i. auto. }
  destruct HV as [vs HV]. exists ks, vs. split; auto. apply (proj1 (words_split U (length text) text ltac:(lia))).
Qed.
Print Assumptions C55_defined.
(** The sentence vector of a supervised model always exists (doubles). *)
Theorem C55_supervised_total : forall (m : libm) (vs : list (list (F64 m))) n dim, rect vs n dim -> 1 <= n -> (Z.of_nat n <= 2 ^ 53)%Z ->
  exists out, averaged vs dim out.
Proof.
  intros m vs n dim R Hn HB. destruct (mapM_total (fun col : list (F64 m) => div (psum col) (ofnat (length vs))) (zipstar vs)) as [out E].
  - intros c Hc. destruct (u_nat _ (F64_unit m) n HB) as (_ & _ & P). specialize (P ltac:(lia)). destruct R as [L _]. rewrite L.
    apply (u_div_ok _ (F64_unit m)). destruct (eqb (ofnat n : F64 m) zero) eqn:Q; auto. rewrite (o_eq_lt_r _ (F64_ord m) _ _ zero Q) in P. rewrite (o_irr _ (F64_ord m)) in P. discriminate.
  - exists out. apply (average_iff vs n dim out R Hn). exact E.
Qed.
Print Assumptions C55_supervised_total.
(** In exact arithmetic the unit vectors are the vectors divided by their
    Euclidean norm, so of norm 1. *)
Theorem C55_unit_exact : forall (v : list R) u, unit_row (A:=XR) (fins v) u ->
  (Rl2 v <> 0%R -> u = fins (map (fun x => x / Rl2 v)%R v) /\ Rl2 (map (fun x => x / Rl2 v)%R v) = 1%R) /\ (Rl2 v = 0%R -> u = fins v).
Proof.
  intros v u (n & (qs & HQ & En) & H1 & H2).
  assert (EQ : qs = fins (map (fun x => x * x)%R v)).
  { clear -HQ. remember (fins v) as w. revert v Heqw. induction HQ as [|x q w qs E H IH]; intros [|a v] Q; try discriminate; auto. injection Q as -> ->. unfold fins. cbn [map]. f_equal; [|apply IH; auto].
    cbn in E. injection E as <-. reflexivity. }
  subst qs. rewrite psum_fins in En.
  assert (SQ : Rsum (map (fun x => x * x)%R v) = Rdot v v). { clear. induction v as [|x v IH]; auto. cbn [map Rsum]. rewrite IH. reflexivity. }
  rewrite SQ in En. cbn [sqrtv XR x_sqrt] in En. rewrite (proj2 (Rltb_ge (Rdot v v) 0) (Rdot_self_pos v)) in En. injection En as <-. change (R_sqrt.sqrt (Rdot v v)) with (Rl2 v) in *.
  assert (NN : (0 <= Rl2 v)%R) by apply Rl2_nonneg. split.
  - intro N0. assert (P : ltb (zero : XR) (XFin (Rl2 v) : XR) = true) by (apply Rltb_lt; lra).
    destruct (H1 P) as (r & Hr & ->). destruct v as [|x v]; [exfalso; apply N0; unfold Rl2; cbn; apply sqrt_0|]. set (w := x :: v) in *.
    assert (Er : r = XFin (/ Rl2 w)). { specialize (Hr ltac:(discriminate)). rewrite x_one in Hr. rewrite (x_div_fin 1 (Rl2 w) N0) in Hr. injection Hr as <-. f_equal. unfold Rdiv. ring. }
    subst r. split; [unfold fins; rewrite !map_map; reflexivity|].
    assert (D : Rdot (map (fun y => y / Rl2 w)%R w) (map (fun y => y / Rl2 w)%R w) = 1%R).
    { unfold Rdiv. rewrite Rdot_scale, Rdot_comm, Rdot_scale. rewrite <- Rl2_sq. field. auto. }
    unfold Rl2 at 1. rewrite D. apply sqrt_1.
  - intro Z. apply H2. rewrite Z. apply Rltb_ge. lra.
Qed.
Print Assumptions C55_unit_exact.
Theorem C55_newline : forall (A : arith) (U : textlib) (f : fasttext A) text, In 10%Z text -> get_sentence_vector U f text = Err ValueError.
Proof. intros A U f text H. unfold get_sentence_vector. rewrite (proj2 (mem_in Z.eqb Z.eqb_eq 10%Z text) H). reflexivity. Qed.
Print Assumptions C55_newline.
(** Without a known word the result is the empty list, not the zero vector. *)
Theorem C55_unknown_refuted : forall (A : arith) (U : textlib) (f : fasttext A) text ws, x_space U 10 = true -> ~ In 10%Z text -> words (x_space U) text ws ->
  restricted (f_words f) (ws ++ match f_sup f with Some _ => [lit "</s>"] | None => [] end) [] -> get_sentence_vector U f text = Ok [].
Proof.
  intros A U f text ws HS HN HW HR. unfold get_sentence_vector.
  assert (G : negb (mem Z.eqb 10%Z text) = true). { apply negb_true_iff. apply (mem_false Z.eqb Z.eqb_eq). auto. } rewrite G. cbn [guard bind].
  unfold str_split. rewrite split_trailing by auto. apply words_fun in HW. fold (str_split U text). rewrite <- HW. apply restricted_filter in HR.
  destruct (f_sup f); [change EOS with (lit "</s>"); rewrite HR|rewrite app_nil_r in HR; rewrite HR]; reflexivity.
Qed.
Print Assumptions C55_unknown_refuted.
Example C55_ex : forall m : libm, x_space ex_lib 10 = true /\ words (x_space ex_lib) (lit "dog  cow cat") [lit "dog"; lit "cow"; lit "cat"] /\
  restricted (f_words (ex_ft (A:=F64 m))) ([lit "dog"; lit "cow"; lit "cat"] ++ [lit "</s>"]) [lit "dog"; lit "cat"; lit "</s>"] /\
  match get_sentence_vector ex_lib (ex_ft (A:=F64 m)) (lit "dog  cow cat") with Ok v => map toZ v | Err _ => [] end = [Ok 2%Z; Ok 3%Z] /\
  get_sentence_vector ex_lib {| f_words := [lit "cat"]; f_dim := 2; f_input := [[ofZ 1; ofZ 2 : F64 m]]; f_sup := None |} (lit "cow") = Ok [].
Proof.
  intro m. split; auto. split; [apply (proj1 (words_split ex_lib 100 (lit "dog  cow cat") ltac:(cbn; lia)))|]. split; [apply (restricted_filter' (f_words (ex_ft (A:=F64 m))))|].
  split; vm_compute; reflexivity.
Qed.

(** C58.  On doubles, for at most 2^53 finite scores: no error, entries in
    [0,1].  In exact arithmetic: the softmax. *)
Theorem C58_stable : forall m : libm, exp_le1 m -> exp_at_0 m -> forall s : list (F64 m), s <> [] -> Forall (fun x => is_finite x = true) s ->
  (Z.of_nat (length s) <= 2 ^ 53)%Z ->
  exists p, ft_sfmax s = Ok p /\ shifted_softmax s p /\ length p = length s /\ Forall (fun q => leb zero q = true /\ leb q one = true) p.
Proof. intros m HL H0 s. apply ft_sfmax_unit; auto. Qed.
Print Assumptions C58_stable.
Theorem C58_exact : forall l : list R, l <> [] -> ft_sfmax (A:=XR) (fins l) = Ok (fins (softmax l)) /\ distribution (softmax l).
Proof. intros l H. split; [apply ft_sfmax_XR|apply softmax_dist; auto]. Qed.
Print Assumptions C58_exact.
Example C58_ex : exp_le1 crlibm /\ exp_at_0 crlibm /\ Forall (fun x : f64 => is_finite x = true) [f_ofZE 1 1000; f_ofZE (-1) 1000; f_ofZE 0 0].
Proof. split; [apply cr_exp_le1|]. split; [apply cr_exp_0|]. repeat constructor. Qed.

(** C56.  The scores of the labels, and the model's prediction; among equal
    probabilities the later label comes first. *)
Definition scores {A : arith} (v : list A) (output : list (list A)) : list A := map (dotp v) output.
Theorem C56_partial : forall m : libm, exp_le1 m -> exp_at_0 m -> forall (U : textlib) (f : fasttext (F64 m)) labels output text v (k : Z) thr,
  f_sup f = Some (lit "softmax", labels, output) -> length labels = length output -> 1 <= length output -> (Z.of_nat (length output) <= 2 ^ 53)%Z ->
  get_sentence_vector U f text = Ok v -> Forall (fun x => is_finite x = true) (scores v output) -> (0 <= k)%Z ->
  exists p I ls ps, ft_predict U f (One text) k thr = Ok (ls, ps) /\
    shifted_softmax (scores v output) p /\ top_k p thr (Z.to_nat k) I /\
    Forall2 (fun i l => nth_error labels i = Some l) I ls /\ Forall2 (fun i x => nth_error p i = Some x) I ps /\
    (forall a b i j x y, a < b -> nth_error I a = Some i -> nth_error I b = Some j -> nth_error p i = Some x -> nth_error p j = Some y -> ltb y x = false -> j < i).
Proof.
  intros m HL H0 U f labels output text v k thr HF LL L1 LB EV FS Hk. unfold ft_predict, ft_predict1. rewrite HF, EV. cbn [bind]. rewrite str_eqb_refl. cbn [guard bind].
  assert (DS : ft_dot v output = scores v output) by (unfold ft_dot, scores; apply map_ext; intro b; apply psum_zip). rewrite DS.
  destruct (ft_sfmax_unit m HL H0 (scores v output)) as (p & Ep & SP & Lp & UP); auto; [unfold scores; destruct output; [cbn in L1; lia|discriminate]|unfold scores; rewrite map_length; auto|].
  rewrite Ep. cbn [bind].
  assert (NP : Forall (fun x : F64 m => isnan x = false) p). { eapply Forall_impl; [|exact UP]. intros x [_ Hx]. apply (leb_nan (F64_ord m)) in Hx. tauto. }
  destruct (ranked (F64_ord m) p thr NP) as (qs & Eq & SQ & NQ & IQ). rewrite Eq. cbn [bind]. rewrite kept_idx.
  set (I := firstn (Z.to_nat k) (map snd (filter (fun q => leb thr (fst q)) qs))).
  assert (ES : slice_to (map snd (filter (fun q => leb thr (fst q)) qs)) k = I) by (unfold slice_to; destruct (Z.ltb_spec k 0); [lia|reflexivity]). rewrite ES.
  pose proof (top_k_ok (A:=F64 m) p thr (Z.to_nat k) qs SQ NQ IQ) as TK. fold I in TK.
  assert (IB : forall i, In i I -> i < length p). { intros i Hi. destruct TK as (_ & _ & T & _). destruct (T i Hi) as (x & Hx & _). apply nth_error_Some. congruence. }
  assert (PK : forall {T} (l : list T), length l = length p -> exists ys, mapM (lnth l) I = Ok ys /\ Forall2 (fun i y => nth_error l i = Some y) I ys).
  { intros T l Hl. destruct (mapM_total (lnth l) I) as [ys E].
    - intros i Hi. unfold lnth. destruct (nth_error l i) eqn:Q; eauto. apply nth_error_None in Q. specialize (IB i Hi). lia.
    - exists ys. split; auto. apply mapM_Forall2 in E. eapply Forall2_imp; [|exact E]. intros i y H. unfold lnth in H. destruct (nth_error l i); congruence. }
  unfold scores in Lp. rewrite map_length in Lp. destruct (PK _ labels) as (ls & El & Fl); [congruence|]. destruct (PK _ p eq_refl) as (ps & Eps & Fp).
  exists p, I, ls, ps. rewrite El, Eps. split; [auto|]. split; [auto|]. split; [auto|]. split; [auto|]. split; [auto|].
  intros a b i j x y L Ha Hb. unfold I in Ha, Hb. apply firstn_nth in Ha, Hb. apply (ties_ok p thr qs SQ IQ a b); tauto.
Qed.
Print Assumptions C56_partial.
(** k = -1 does not return every label: the last one kept is always dropped. *)
Theorem C56_all_refuted : forall m : libm, exp_le1 m -> exp_at_0 m -> forall (U : textlib) (f : fasttext (F64 m)) labels output text v,
  f_sup f = Some (lit "softmax", labels, output) -> length labels = length output -> 1 <= length output -> (Z.of_nat (length output) <= 2 ^ 53)%Z ->
  get_sentence_vector U f text = Ok v -> Forall (fun x => is_finite x = true) (scores v output) ->
  exists ls ps, ft_predict U f (One text) (-1) zero = Ok (ls, ps) /\ length ls = length labels - 1.
Proof.
  intros m HL H0 U f labels output text v HF LL L1 LB EV FS.
  set (k := Z.of_nat (length output - 1)). destruct (C56_partial m HL H0 U f labels output text v k zero HF LL L1 LB EV FS ltac:(lia)) as (p & I & ls & ps & E & SP & TK & Fl & Fp & _).
  exists ls, ps. 
  assert (LP : length p = length output). { destruct SP as (mx & es & _ & _ & F1 & F2). apply Forall2_len in F1, F2. unfold scores in F1. rewrite map_length in F1. lia. }
  assert (LI : length ls = length I) by (symmetry; eapply Forall2_len; eauto).
  assert (Q : ft_predict U f (One text) (-1) zero = ft_predict U f (One text) k zero /\ length I = length output - 1).
  { revert E. unfold ft_predict, ft_predict1. rewrite HF, EV. cbn [bind]. rewrite str_eqb_refl. cbn [guard bind].
    assert (DS : ft_dot v output = scores v output) by (unfold ft_dot, scores; apply map_ext; intro b; apply psum_zip). rewrite DS.
    destruct (ft_sfmax_unit m HL H0 (scores v output)) as (p' & Ep & SP' & Lp & UP); auto; [unfold scores; destruct output; [cbn in L1; lia|discriminate]|unfold scores; rewrite map_length; auto|].
    rewrite Ep. cbn [bind].
    assert (NP : Forall (fun x : F64 m => isnan x = false) p'). { eapply Forall_impl; [|exact UP]. intros x [_ Hx]. apply (leb_nan (F64_ord m)) in Hx. tauto. }
    destruct (ranked (F64_ord m) p' zero NP) as (qs & Eq & SQ & NQ & IQ). rewrite Eq. cbn [bind]. rewrite kept_idx.
    assert (ALL : filter (fun q : F64 m * nat => leb zero (fst q)) qs = qs).
    { assert (FI : forall T (g : T -> bool) l, (forall x, In x l -> g x = true) -> filter g l = l) by (clear; intros T g l; induction l as [|y l IH]; intro H; auto; cbn [filter]; rewrite H by (left; auto); f_equal; apply IH; intros; apply H; right; auto). apply FI. intros [x i] Hx. apply IQ in Hx. cbn [fst]. rewrite Forall_forall in UP. apply (UP x). eapply nth_error_In; eauto. }
    rewrite ALL. assert (LQ : length (map snd qs) = length output).
    { transitivity (length p'); [|unfold scores in Lp; rewrite map_length in Lp; auto]. assert (PM : Permutation.Permutation (map snd qs) (range (length p'))).
      { apply Permutation.NoDup_Permutation; auto; [apply seq_NoDup|]. intro i. unfold range. rewrite in_seq. rewrite in_map_iff. split.
        - intros ([x j] & <- & H). apply IQ in H. cbn [snd]. split; [lia|]. rewrite Nat.add_0_l; apply nth_error_Some. congruence.
        - intros [_ H]. destruct (nth_error p' i) as [x|] eqn:E; [|apply nth_error_None in E; rewrite Nat.add_0_l in H; apply Nat.le_ngt in E; contradiction]. exists (x, i). split; auto. apply IQ. auto. }
      apply Permutation.Permutation_length in PM. unfold range in PM. rewrite seq_length in PM. auto. }
    assert (SL : slice_to (map snd qs) (-1) = slice_to (map snd qs) k).
    { unfold slice_to. change ((-1 <? 0)%Z) with true. cbv iota. rewrite LQ. destruct (Z.ltb_spec k 0); [lia|]. f_equal. lia. }
    rewrite SL. intro E. split; auto. inv_bind E. inv_bind E. injection E as <- <-. rewrite <- LI. rewrite (mapM_length _ _ _ E0).
    unfold slice_to. destruct (Z.ltb_spec k 0); [lia|]. rewrite firstn_length, LQ. lia. }
  destruct Q as [Q LQ]. split; [rewrite Q; auto|]. lia.
Qed.
Print Assumptions C56_all_refuted.
Theorem C56_unsupervised : forall (A : arith) (U : textlib) (f : fasttext A) text k thr, f_sup f = None -> ft_predict U f text k thr = Err ValueError.
Proof. intros A U f text k thr H. unfold ft_predict. rewrite H. auto. Qed.
Print Assumptions C56_unsupervised.
Example C56_ex : exists v, get_sentence_vector ex_lib (ex_ft (A:=F64 crlibm)) (lit "dog cat") = Ok v /\ Forall (fun x => is_finite x = true) (scores v [[ofZ 1; ofZ 0]; [ofZ 0; ofZ 1]; [ofZ 1; ofZ 0 : F64 crlibm]]).
Proof.
  assert (Q : match get_sentence_vector ex_lib (ex_ft (A:=F64 crlibm)) (lit "dog cat") with Ok v => forallb is_finite (scores v [[ofZ 1; ofZ 0]; [ofZ 0; ofZ 1]; [ofZ 1; ofZ 0 : F64 crlibm]]) | Err _ => false end = true) by (vm_compute; reflexivity).
  destruct (get_sentence_vector ex_lib (ex_ft (A:=F64 crlibm)) (lit "dog cat")) as [v|]; [|discriminate]. exists v. split; auto. apply Forall_forall. rewrite forallb_forall in Q. exact Q.
Qed.

(** C57.  predict on a list always raises AttributeError. *)
Theorem C57_refuted : forall (A : arith) (U : textlib) (f : fasttext A) texts k thr, f_sup f <> None -> ft_predict U f (Many texts) k thr = Err AttributeError.
Proof. intros A U f texts k thr H. unfold ft_predict. destruct (f_sup f); [auto|congruence]. Qed.
Print Assumptions C57_refuted.
