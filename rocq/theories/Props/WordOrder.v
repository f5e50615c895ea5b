(** C90: the order of the words of a fastText sentence. *)
From Coq Require Import String Reals Lia Lra Permutation.
From Flocq Require Import Core BinarySingleNaN.
From Verif Require Import Model.Py Model.Arith Model.F64 Model.XR Model.Utils Model.Base Model.Text Model.FastText.
From Verif Require Import Spec.Matrix Spec.Reals Spec.Libm Spec.Text Spec.Ensembles Spec.FastText Spec.Rounding Spec.Scaling Spec.Pairwise.
From Verif Require Import Proofs.Lib Proofs.Laws Proofs.Arrays Proofs.RealLib Proofs.Text Proofs.FastText Proofs.Scaling Proofs.Pairwise Proofs.AnyOrder.
From Verif Require Import Props.Text Props.FastText Props.Accuracy Props.SentenceAccuracy Props.UnitAccuracy Props.FastTextAccuracy Props.FastTextEnd.
Import ListNotations.
Local Open Scope R_scope.

Lemma filter_perm : forall {T} (g : T -> bool) l l', Permutation l l' -> Permutation (filter g l) (filter g l').
Proof.
  intros T g l l' P. induction P as [|x l l' P IH|x y l|l1 l2 l3 P1 IH1 P2 IH2]; cbn [filter]; [constructor|destruct (g x); [constructor|]; auto| |eapply perm_trans; eauto].
  destruct (g y), (g x); auto. apply perm_swap.
Qed.
Lemma known_perm : forall vocab ws ws' ks, Permutation ws ws' -> restricted vocab ws ks -> exists ks', restricted vocab ws' ks' /\ Permutation ks ks'.
Proof.
  intros vocab ws ws' ks P H. exists (filter (fun w => mem str_eqb w vocab) ws'). split; [apply restricted_filter'|]. apply restricted_filter in H. subst ks. apply filter_perm. exact P.
Qed.
Lemma Rmean_perm : forall l l', Permutation l l' -> Rmean l = Rmean l'.
Proof. intros l l' P. unfold Rmean. rewrite (Rsum_perm _ _ P), (Permutation_length P). reflexivity. Qed.
Lemma perm_nil : forall {T} (l l' : list T), Permutation l l' -> l <> [] -> l' <> [].
Proof. intros T l l' P N ->. apply N. apply Permutation_nil. apply Permutation_sym. exact P. Qed.
Lemma two_near : forall a b c e, Rabs (a - c) <= e -> Rabs (b - c) <= e -> Rabs (a - b) <= 2 * e.
Proof. intros a b c e A B. apply Rabs_le_inv in A, B. apply Rabs_le. lra. Qed.

(** C90.  Supervised, doubles: two texts with the same words in any order have
    sentence vectors that differ by at most twice the rounding error. *)
Theorem C90_supervised_float : forall (m : libm) (U : textlib) (f : fasttext (F64 m)) s text text' ws ws' ks vs N dim,
  f_sup f = Some s -> x_space U 10 = true -> ~ In 10%Z text -> ~ In 10%Z text' ->
  words (x_space U) text ws -> words (x_space U) text' ws' -> Permutation ws ws' ->
  restricted (f_words f) (ws ++ [lit "</s>"]) ks -> ks <> [] ->
  rect (f_input f) N dim -> Forall2 (vector_of (f_words f) (f_input f)) ks vs ->
  (Z.of_nat (length vs) <= 2 ^ 52)%Z -> Forall all_finite vs ->
  (forall j, (j < dim)%nat -> Rsum (map (fun v => Rabs (nth j (reals v) 0)) vs) <= bpow radix2 990) ->
  exists out out', get_sentence_vector U f text = Ok out /\ get_sentence_vector U f text' = Ok out' /\ length out = dim /\ length out' = dim /\
    forall j x y, nth_error out j = Some x -> nth_error out' j = Some y -> is_finite x = true /\ is_finite y = true /\
      Rabs (real x - real y) <= 2 * ((INR (length vs) + 1) * ulp1 * Rmean (map (fun v => Rabs (nth j (reals v) 0)) vs) + tiny).
Proof.
  intros m U f s text text' ws ws' ks vs N dim ES HS HN HN' HW HW' P HR NK RI HV BK FV SB.
  destruct (C55_accuracy_float m U f s text ws ks vs N dim ES HS HN HW HR NK RI HV BK FV SB) as (out & E & L & B).
  destruct (known_perm (f_words f) _ (ws' ++ [lit "</s>"]) ks (Permutation_app P (Permutation_refl _)) HR) as (ks' & HR' & PK).
  destruct (Permutation_Forall2 PK HV) as (vs' & PV & HV').
  destruct (C55_accuracy_float m U f s text' ws' ks' vs' N dim ES HS HN' HW' HR' (perm_nil _ _ PK NK) RI HV') as (out' & E' & L' & B').
  - rewrite <- (Permutation_length PV). exact BK.
  - eapply Permutation_Forall; eauto.
  - intros j Hj. rewrite <- (Rsum_perm _ _ (Permutation_map (fun v : list f64 => Rabs (nth j (reals v) 0)) PV)). apply SB. exact Hj.
  - exists out, out'. split; [exact E|]. split; [exact E'|]. split; [exact L|]. split; [exact L'|]. intros j x y Hx Hy.
    destruct (B j x Hx) as [Fx Bx]. destruct (B' j y Hy) as [Fy By]. split; [exact Fx|]. split; [exact Fy|].
    rewrite <- (Rmean_perm _ _ (Permutation_map (fun v : list f64 => nth j (reals v) 0) PV)), <- (Rmean_perm _ _ (Permutation_map (fun v : list f64 => Rabs (nth j (reals v) 0)) PV)), <- (Permutation_length PV) in By.
    eapply two_near; eauto.
Qed.
Print Assumptions C90_supervised_float.

(** C90.  Unsupervised, doubles. *)
Theorem C90_unsupervised_float : forall (m : libm) (U : textlib) (f : fasttext (F64 m)) text text' ws ws' ks vs N dim,
  f_sup f = None -> x_space U 10 = true -> ~ In 10%Z text -> ~ In 10%Z text' ->
  words (x_space U) text ws -> words (x_space U) text' ws' -> Permutation ws ws' ->
  restricted (f_words f) ws ks -> ks <> [] ->
  rect (f_input f) N dim -> Forall2 (vector_of (f_words f) (f_input f)) ks vs ->
  (Z.of_nat (length vs) <= 2 ^ 52)%Z -> (Z.of_nat dim <= 2 ^ 46)%Z -> Forall all_finite vs -> Forall (fun v => well_scaled (reals v)) vs ->
  exists out out', get_sentence_vector U f text = Ok out /\ get_sentence_vector U f text' = Ok out' /\ length out = dim /\ length out' = dim /\
    forall j x y, nth_error out j = Some x -> nth_error out' j = Some y -> is_finite x = true /\ is_finite y = true /\
      Rabs (real x - real y) <= 2 * ((2 * INR (length vs) + 2 * INR dim + 11) * ulp1 + 2 * tiny).
Proof.
  intros m U f text text' ws ws' ks vs N dim ES HS HN HN' HW HW' P HR NK RI HV BK BD FV SV.
  destruct (C55_unsupervised_accuracy_float m U f text ws ks vs N dim ES HS HN HW HR NK RI HV BK BD FV SV) as (out & E & L & B).
  destruct (known_perm (f_words f) _ ws' ks P HR) as (ks' & HR' & PK).
  destruct (Permutation_Forall2 PK HV) as (vs' & PV & HV').
  destruct (C55_unsupervised_accuracy_float m U f text' ws' ks' vs' N dim ES HS HN' HW' HR' (perm_nil _ _ PK NK) RI HV') as (out' & E' & L' & B').
  - rewrite <- (Permutation_length PV). exact BK.
  - exact BD.
  - eapply Permutation_Forall; eauto.
  - eapply Permutation_Forall; eauto.
  - exists out, out'. split; [exact E|]. split; [exact E'|]. split; [exact L|]. split; [exact L'|]. intros j x y Hx Hy.
    destruct (B j x Hx) as [Fx Bx]. destruct (B' j y Hy) as [Fy By]. split; [exact Fx|]. split; [exact Fy|].
    rewrite <- (Rmean_perm _ _ (Permutation_map (fun v : list f64 => nth j (unitise Rl2 (reals v)) 0) PV)), <- (Permutation_length PV) in By.
    eapply two_near; eauto.
Qed.
Print Assumptions C90_unsupervised_float.

Lemma averaged_perm : forall (V V' : list (list R)) dim out, Permutation V V' -> averaged (A:=XR) (finss V) dim out -> averaged (A:=XR) (finss V') dim out.
Proof.
  intros V V' dim out P [L H]. split; [exact L|]. intros j x Hj. destruct (H j x Hj) as (col & HC & D).
  destruct (Permutation_Forall2 (Permutation_map fins P) HC) as (col' & PC & HC'). exists col'. split; [exact HC'|].
  assert (G : forall (W : list (list R)) c, Forall2 (fun v (y : XR) => nth_error v j = Some y) (map fins W) c -> exists r, c = fins r).
  { clear. intro W. induction W as [|w W IH]; intros c H; inversion H as [|? y ? c' Hy H']; subst; [exists []; reflexivity|]. destruct (IH c' H') as [r ->].
    unfold fins in Hy. rewrite nth_error_map' in Hy. destruct (nth_error w j) as [a|]; [|discriminate]. injection Hy as <-. exists (a :: r). reflexivity. }
  destruct (G V col HC) as [r ->]. destruct (G V' col' HC') as [r' ->].
  assert (PR : Permutation r r').
  { unfold fins in PC. apply (Permutation_map (fun y => match y with XFin a => a | _ => 0 end)) in PC. rewrite !map_map, !map_id in PC. exact PC. }
  rewrite psum_fins in D |- *. rewrite <- (Rsum_perm _ _ PR). unfold finss in *. rewrite map_length in D |- *. rewrite <- (Permutation_length P). exact D.
Qed.

(** C90.  In exact arithmetic the vectors are equal. *)
Theorem C90_exact : forall (U : textlib) (f : fasttext XR) text text' ws ws' ks (V : list (list R)) N dim out,
  x_space U 10 = true -> ~ In 10%Z text -> ~ In 10%Z text' ->
  words (x_space U) text ws -> words (x_space U) text' ws' -> Permutation ws ws' ->
  restricted (f_words f) (ws ++ match f_sup f with Some _ => [lit "</s>"] | None => [] end) ks -> ks <> [] ->
  rect (f_input f) N dim -> Forall2 (vector_of (f_words f) (f_input f)) ks (finss V) ->
  get_sentence_vector U f text = Ok out -> get_sentence_vector U f text' = Ok out.
Proof.
  intros U f text text' ws ws' ks V N dim out HS HN HN' HW HW' P HR NK RI HV E.
  destruct (known_perm (f_words f) _ (ws' ++ match f_sup f with Some _ => [lit "</s>"] | None => [] end) ks (Permutation_app P (Permutation_refl _)) HR) as (ks' & HR' & PK).
  destruct (Permutation_Forall2 PK HV) as (vs' & PV & HV').
  destruct (Permutation_map_inv _ _ (Permutation_sym PV)) as (V' & -> & PV').
  apply (C55_partial XR U f text ws ks (finss V) N dim HS HN HW HR NK RI HV out) in E.
  apply (C55_partial XR U f text' ws' ks' (finss V') N dim HS HN' HW' HR' (perm_nil _ _ PK NK) RI HV' out).
  destruct (f_sup f) as [sp|]; [eapply averaged_perm; eauto|]. destruct E as (us & FU & HA).
  assert (UF : exists W, us = finss W).
  { clear - FU. remember (finss V) as M eqn:Q. revert V Q. induction FU as [|v u M us H FU IH]; intros [|w V] Q; try discriminate Q; [exists []; reflexivity|]. injection Q as -> ->.
    destruct (IH V eq_refl) as [W ->]. destruct (C55_unit_exact w u H) as [U1 U2]. destruct (Req_dec (Rl2 w) 0) as [Z|Z]; [exists (w :: W); rewrite (U2 Z); reflexivity|].
    destruct (U1 Z) as [-> _]. exists (map (fun x => x / Rl2 w) w :: W). reflexivity. }
  destruct UF as [W ->]. destruct (Permutation_Forall2 (Permutation_map fins PV') FU) as (us' & PU & FU').
  destruct (Permutation_map_inv _ _ (Permutation_sym PU)) as (W' & -> & PW'). exists (map fins W'). split; [exact FU'|]. eapply averaged_perm; eauto.
Qed.
Print Assumptions C90_exact.

(** C90.  Bit for bit the claim is false on doubles: 2^53 + 1 - 2^53 is 0 or 1
    depending on the order. *)
Definition ex_order {A : arith} (sum : list A) : fasttext A :=
  {| f_words := [lit "a"; lit "b"; lit "c"]; f_input := map (fun x => [x]) sum; f_dim := 1%Z; f_sup := Some (lit "softmax", [lit "l"], [[one]]) |}.
Theorem C90_refuted : forall m : libm, let f := ex_order (A:=F64 m) [f_ofZE 1 53; f_ofZE 1 0; f_ofZE (-1) 53] in
  exists x y : f64, get_sentence_vector ex_lib f (lit "a b c") = Ok [x] /\ get_sentence_vector ex_lib f (lit "a c b") = Ok [y] /\
    f_eqb x y = false.
Proof.
  intros m f. assert (Q : match get_sentence_vector ex_lib f (lit "a b c"), get_sentence_vector ex_lib f (lit "a c b") with Ok [x], Ok [y] => negb (f_eqb x y) | _, _ => false end = true) by (vm_compute; reflexivity).
  destruct (get_sentence_vector ex_lib f (lit "a b c")) as [[|x [|? ?]]|]; try discriminate Q.
  destruct (get_sentence_vector ex_lib f (lit "a c b")) as [[|y [|? ?]]|]; try discriminate Q.
  exists x, y. split; [reflexivity|]. split; [reflexivity|]. apply negb_true_iff. exact Q.
Qed.
Print Assumptions C90_refuted.

(** "dog cow cat" and "cat dog cow". *)
Example C90_ex : forall m : libm, exists out out',
  get_sentence_vector ex_lib (ex_ft (A:=F64 m)) (lit "dog  cow cat") = Ok out /\ get_sentence_vector ex_lib (ex_ft (A:=F64 m)) (lit "cat dog cow") = Ok out' /\
  length out = 2%nat /\ length out' = 2%nat.
Proof.
  intro m. assert (FI : forall n, (Z.abs n <= 2 ^ 53)%Z -> is_finite (f_ofZE n 0) = true) by (intros; apply real_ofZ; auto).
  destruct (C90_supervised_float m ex_lib (ex_ft (A:=F64 m)) (lit "softmax", [lit "a"; lit "b"; lit "c"], [[ofZ 1; ofZ 0]; [ofZ 0; ofZ 1]; [ofZ 1; ofZ 0]]) (lit "dog  cow cat") (lit "cat dog cow")
    [lit "dog"; lit "cow"; lit "cat"] [lit "cat"; lit "dog"; lit "cow"] [lit "dog"; lit "cat"; lit "</s>"]
    [[ofZ 3; ofZ 5]; [ofZ 1; ofZ 2]; [ofZ 2; ofZ 2]] 4 2) as (out & out' & E & E' & L & L' & _).
  - reflexivity.
  - reflexivity.
  - cbn. intuition discriminate.
  - cbn. intuition discriminate.
  - apply (proj1 (words_split ex_lib 100 (lit "dog  cow cat") ltac:(cbn; lia))).
  - apply (proj1 (words_split ex_lib 100 (lit "cat dog cow") ltac:(cbn; lia))).
  - apply Permutation_sym. apply (Permutation_cons_append [lit "dog"; lit "cow"] (lit "cat")).
  - apply (restricted_filter' (f_words (ex_ft (A:=F64 m)))).
  - discriminate.
  - split; [reflexivity|repeat constructor].
  - constructor; [exists 1%nat|constructor; [exists 0%nat|constructor; [exists 3%nat|constructor]]]; (split; [|reflexivity]); (split; [reflexivity|]);
      intros [|[|[|j]]] Hj; try lia; cbn; discriminate.
  - cbn; lia.
  - repeat constructor; apply FI; cbn; lia.
  - intros [|[|j]] Hj; [..|lia]; change (@ofZ (F64 m)) with (fun n => f_ofZE n 0); cbv beta; unfold reals; cbn [map nth Rsum];
      rewrite !(fun n H => proj1 (real_ofZ n H)) by (cbn; lia); rewrite !Rabs_pos_eq by lra;
      (apply Rle_trans with (bpow radix2 10); [cbn; lra|apply bpow_le; lia]).
  - exists out, out'. auto.
Qed.

(** C90.  The first label predicted is the same for every order of the words,
    when the exact probability of one label leads by more than twice the error
    and exceeds the threshold by more than the error.  The hypotheses hold of the two
    texts of C90_ex: see C56_end_ex and C56_end_label_ex. *)
Theorem C90_label_float : forall m d (U : textlib) (f : fasttext (F64 m)) labels output text text' ws ws' ks vs N dim B W (k : Z) thr i l r,
  exp_accurate m d -> 0 <= d ->
  f_sup f = Some (lit "softmax", labels, output) -> length labels = length output -> output <> [] ->
  (Z.of_nat (length output) <= 2 ^ 47)%Z -> INR (length output) * d <= / 8 ->
  x_space U 10 = true -> ~ In 10%Z text -> ~ In 10%Z text' ->
  words (x_space U) text ws -> words (x_space U) text' ws' -> Permutation ws ws' ->
  restricted (f_words f) (ws ++ [lit "</s>"]) ks -> ks <> [] ->
  rect (f_input f) N dim -> Forall2 (vector_of (f_words f) (f_input f)) ks vs ->
  (Z.of_nat (length vs) <= 2 ^ 52)%Z -> (Z.of_nat dim < 2 ^ 52)%Z ->
  0 <= B <= bpow radix2 900 -> 0 <= W -> Forall (bounded_by B) vs -> Forall (bounded_by W) output ->
  text_error dim (length vs) B W <= / 4 -> (1 <= k)%Z ->
  nth_error labels i = Some l -> nth_error (exact_probs vs output dim) i = Some r -> is_finite (thr : f64) = true ->
  real thr + ft_error d (text_error dim (length vs) B W) (length output) < r ->
  (forall j q, j <> i -> nth_error (exact_probs vs output dim) j = Some q -> q + 2 * ft_error d (text_error dim (length vs) B W) (length output) < r) ->
  exists x ls ps x' ls' ps', ft_predict U f (One text) k thr = Ok (l :: ls, x :: ps) /\ ft_predict U f (One text') k thr = Ok (l :: ls', x' :: ps').
Proof.
  intros m d U f labels output text text' ws ws' ks vs N dim B W k thr i l r HA Hd HF LL NO LK Hnd HS HN HN' HW HW' P HR NK RI HV BK BD HB HWp FV FW HE Hk Hl Hr Ft Ht HM.
  destruct (C56_end_label_float_partial m d U f labels output text ws ks vs N dim B W k thr i l r HA Hd HF LL NO LK Hnd HS HN HW HR NK RI HV BK BD HB HWp FV FW HE Hk Hl Hr Ft Ht HM) as (x & ls & ps & E & _).
  destruct (known_perm (f_words f) _ (ws' ++ [lit "</s>"]) ks (Permutation_app P (Permutation_refl _)) HR) as (ks' & HR' & PK).
  destruct (Permutation_Forall2 PK HV) as (vs' & PV & HV').
  assert (EP : exact_probs vs output dim = exact_probs vs' output dim).
  { unfold exact_probs. f_equal. apply map_ext. intro w. f_equal. unfold mean_vector. apply map_ext. intro j. apply Rmean_perm. exact (Permutation_map _ PV). }
  rewrite EP in Hr, HM. rewrite (Permutation_length PV) in *.
  destruct (C56_end_label_float_partial m d U f labels output text' ws' ks' vs' N dim B W k thr i l r HA Hd HF LL NO LK Hnd HS HN' HW' HR' (perm_nil _ _ PK NK) RI HV' BK BD HB HWp (Permutation_Forall PV FV) FW HE Hk Hl Hr Ft Ht HM) as (x' & ls' & ps' & E' & _).
  exists x, ls, ps, x', ls', ps'. auto.
Qed.
Print Assumptions C90_label_float.
