(** C75: inputs of the fitted form never make a converted estimator raise. *)
From Coq Require Import String Lia.
From Verif Require Import Model.Py Model.Arith Model.F64 Model.Utils Model.Base Model.Hash Model.DictVec
  Model.Text Model.Tree Model.Ensemble Model.Xgb Model.Linear Model.NaiveBayes
  Model.Dummy Model.Preprocessing Model.Encoders Model.Impute Model.Pipeline Model.Est.
From Verif Require Import Spec.Matrix Spec.Libm Spec.Trees Spec.Linear Spec.Shapes Spec.Accepts Proofs.Lib Proofs.Laws Proofs.CRLibm
  Proofs.Accepts Proofs.Accepts3 Proofs.Accepts4 Proofs.Accepts5 Props.Text Props.Trees Props.Shapes.

(** Double arithmetic with a C library whose exp is not negative; categories
    with a decidable equality; Unicode functions that keep text text. *)
Section Accepts.
Variable (m : libm).
Context {L V : Type} (veq : V -> V -> bool) (vnum : F64 m -> V) (U : textlib).
Notation ob := (obj_of (A:=F64 m) (L:=L) veq vnum U).

(** C75.  Whatever numbers (NaN and infinities included), texts, mappings or
    fitted categories an input of [n] rows of the fitted form [s] holds,
    transform succeeds and gives [n] rows of the form [s'] ... *)
Theorem C75_transform : forall (e : est (F64 m) L V) s s', exp_nonneg m -> good_lib U -> (forall a b, veq a b = true <-> a = b) ->
  maps_to U e s s' ->
  exists f, o_transform (ob e) = Some f /\
    forall n X, 1 <= n -> of_form s n X -> exists Y, t_value (f X) = Ok Y /\ of_form s' n Y.
Proof.
  intros e s s' HE GU VE H. destruct (maps_handles (F64_total m HE) veq vnum U VE GU e s s' H) as (_ & f & E & HF). exists f. split; [exact E|]. intros n X Hn HX. exact (proj1 (HF n X Hn HX)).
Qed.

(** ... predict_proba gives [n] rows of [k] numbers ... *)
Theorem C75_proba : forall (e : est (F64 m) L V) s k, exp_nonneg m -> good_lib U -> (forall a b, veq a b = true <-> a = b) ->
  rates U e s k ->
  exists f, o_proba (ob e) = Some f /\ forall n X, 1 <= n -> of_form s n X -> exists P, fst (f X) = Ok P /\ rect P n k.
Proof. intros e s k HE GU VE H. exact (proj1 (rates_works (F64_total m HE) veq vnum U VE GU e s k H)). Qed.

(** ... so does predict_log_proba, where there is one ... *)
Theorem C75_log_proba : forall (e : est (F64 m) L V) s k g, exp_nonneg m -> good_lib U -> (forall a b, veq a b = true <-> a = b) ->
  rates U e s k -> o_log_proba (ob e) = Some g ->
  forall n X, 1 <= n -> of_form s n X -> exists P, fst (g X) = Ok P /\ rect P n k.
Proof.
  intros e s k g HE GU VE H E n X Hn HX. destruct (proj2 (rates_works (F64_total m HE) veq vnum U VE GU e s k H) g E) as (g' & E' & W).
  assert (g = g') by congruence. subst g'. apply W; auto.
Qed.

(** ... and predict gives a result: classifiers with probabilities ... *)
Theorem C75_label : forall (e : est (F64 m) L V) s k, exp_nonneg m -> good_lib U -> (forall a b, veq a b = true <-> a = b) ->
  rates U e s k -> k_classes e k -> 1 <= k ->
  exists f, o_predict (ob e) = Some f /\ forall n X, 1 <= n -> of_form s n X -> exists p, fst (f X) = Ok p.
Proof.
  intros e s k HE GU VE H HK K1. destruct (C75_proba e s k HE GU VE H) as (f & E & HF).
  destruct (o_predict (ob e)) as [g|] eqn:EG.
  - exists g. split; auto. intros n X Hn HX. destruct (HF n X Hn HX) as (P & EP & _). destruct (C74_label veq vnum U e k f X P (F64_ord m) HK K1 E EP) as (g' & p & E' & Ep). assert (g = g') by congruence. subst g'. eauto.
  - exfalso. clear HF. assert (G : forall (e : est (F64 m) L V) s k, rates U e s k -> o_predict (ob e) = None -> False).
    { clear. intros e s k H. induction H; intro N; try discriminate N.
      - apply IHrates. cbn [obj_of pipeline o_predict map fst snd] in N. unfold pipe_method, last_step in N. cbn [length Nat.sub nth_error option_map snd] in N. destruct (o_predict (ob e)); [discriminate|auto].
      - apply IHrates. destruct rest as [|y rest]; [inversion H0|]. cbn [obj_of pipeline o_predict map fst snd] in N |- *. unfold pipe_method in N |- *. rewrite last_step_cons in N.
        destruct (last_step _) as [o|]; [|auto]. destruct (o_predict o); [discriminate|auto]. }
    exact (G e s k H EG).
Qed.
(** ... and regressors and classifiers without them, one entry per row. *)
Theorem C75_predict : forall (e : est (F64 m) L V) s, exp_nonneg m -> good_lib U -> (forall a b, veq a b = true <-> a = b) ->
  answers U e s ->
  exists f, o_predict (ob e) = Some f /\ forall n X, 1 <= n -> of_form s n X ->
    exists p, fst (f X) = Ok p /\ match p with PLab l => length l = n | PIdx l => length l = n | PNum l => length l = n end.
Proof. intros e s HE GU VE H. exact (answers_works (F64_total m HE) veq vnum U VE GU e s H). Qed.
End Accepts.
Print Assumptions C75_transform.
Print Assumptions C75_proba.
Print Assumptions C75_log_proba.
Print Assumptions C75_label.
Print Assumptions C75_predict.

(** A text pipeline: the counts of two words beside hashed character trigrams,
    normalised, then one-vs-rest logistic regression of three classes. *)
Section Examples.
  Variable m : libm.
  Let A := F64 m.
  Lemma ex_lib_good : good_lib ex_lib.
  Proof.
    split; [|auto]. intros s H. unfold ex_lib, x_lower. apply Forall_forall. intros c Hc. apply in_map_iff in Hc. destruct Hc as (d & <- & Hd). unfold text in H. rewrite Forall_forall in H. specialize (H d Hd).
    destruct (Z.leb_spec 65 d), (Z.leb_spec d 90); cbn [andb]; lia.
  Qed.
  Definition ex_counts : est A nat nat :=
    ECount {| cv_conf := ex_conf "char" 1 2 SWNone; cv_vocab := [(lit "a", 0%Z); (lit "cd", 1%Z)]; cv_binary := false; cv_dtype := DInt |}.
  Definition ex_hashes : est A nat nat :=
    EHashVec {| hv_conf := ex_conf "char_wb" 3 3 SWNone; hv_nfeat := 4; hv_binary := false; hv_norm := Some (lit "l2"); hv_alt := true; hv_dtype := DFloat |}.
  Definition ex_ovr : linear A nat :=
    {| l_coef := [[one; zero; one; zero; one; zero]; [zero; one; zero; one; zero; one]; [one; one; one; zero; zero; zero]]; l_classes := [4; 5; 6];
       l_intercept := Some [zero; one; zero]; l_multi := Some (lit "ovr"); l_solver := Some (lit "liblinear"); l_loss := None |}.
  Definition ex_texts : est A nat nat :=
    EPipeline [(lit "u", EUnion [(lit "c", ex_counts); (lit "h", ex_hashes)] None); (lit "n", ENormalizer (lit "l2")); (lit "l", ELinear KLogistic ex_ovr)].
  Example C75_hypotheses : rates ex_lib ex_texts FTexts 3 /\ k_classes ex_texts 3.
  Proof.
    split.
    - apply (r_step ex_lib _ _ _ _ (FSparse (list_sum (map snd [(true, 2); (true, 4)])))).
      + apply m_union_sparse; [|constructor; reflexivity|repeat (apply Forall_cons; [intro; discriminate|]); apply Forall_nil].
        apply j_sparse; [|reflexivity|apply j_sparse; [|reflexivity|apply j_nil]].
        * apply (m_count ex_lib {| cv_conf := ex_conf "char" 1 2 SWNone; cv_vocab := [(lit "a", 0%Z); (lit "cd", 1%Z)]; cv_binary := false; cv_dtype := DInt |}); [reflexivity|split; [left; reflexivity|left; reflexivity]|].
          intros t j [E|[E|[]]]; injection E as _ <-; cbn; lia.
        * apply m_hashvec; [reflexivity|split; [left; reflexivity|right; left; reflexivity]|reflexivity|cbn; lia|right; left; reflexivity].
      + apply (r_step ex_lib _ _ _ _ (FSparse 6)); [apply m_normalizer_sparse; right; left; reflexivity|]. apply r_last.
        apply (r_logistic ex_lib ex_ovr (FSparse 6) 6 3 [zero; one; zero]); [right; reflexivity| |].
        * split; [split; [reflexivity|repeat constructor]|]. split; [lia|]. split; reflexivity.
        * left. reflexivity.
    - apply (k_pipeline [(lit "u", EUnion [(lit "c", ex_counts); (lit "h", ex_hashes)] None); (lit "n", ENormalizer (lit "l2"))] (lit "l")).
      apply (k_linear_many KLogistic ex_ovr [zero; one; zero] 3); [discriminate|reflexivity..].
  Qed.
End Examples.
(** So on any texts it gives three probabilities and a label for each. *)
Example C75_ex : exists f g, o_proba (obj_of Nat.eqb (fun _ => 0) ex_lib (ex_texts crlibm)) = Some f /\ o_predict (obj_of Nat.eqb (fun _ => 0) ex_lib (ex_texts crlibm)) = Some g /\
  forall s, text s -> exists P p, fst (f (DDocs (RawDocs [DocStr s; DocStr (lit "abcd")]))) = Ok P /\ rect P 2 3 /\ fst (g (DDocs (RawDocs [DocStr s; DocStr (lit "abcd")]))) = Ok p.
Proof.
  destruct (C75_hypotheses crlibm) as [R K].
  destruct (C75_proba crlibm Nat.eqb (fun _ => 0) ex_lib _ _ _ cr_exp_nonneg ex_lib_good Nat.eqb_eq R) as (f & E & H).
  destruct (C75_label crlibm Nat.eqb (fun _ => 0) ex_lib _ _ _ cr_exp_nonneg ex_lib_good Nat.eqb_eq R K ltac:(lia)) as (g & E' & H').
  exists f, g. split; [exact E|]. split; [exact E'|]. intros s Hs.
  assert (HX : of_form (A:=F64 crlibm) (V:=nat) FTexts 2 (DDocs (RawDocs [DocStr s; DocStr (lit "abcd")]))).
  { exists [s; lit "abcd"]. split; [reflexivity|]. split; [reflexivity|]. apply Forall_cons; [exact Hs|]. apply Forall_cons; [|apply Forall_nil]. unfold text. cbn. repeat (apply Forall_cons; [lia|]). apply Forall_nil. }
  destruct (H 2 _ ltac:(lia) HX) as (P & EP & RP). destruct (H' 2 _ ltac:(lia) HX) as (p & Ep). eauto.
Qed.
(** The forms matter: the same pipeline raises on a document that is no text. *)
Example C75_raises : exists f, o_proba (obj_of Nat.eqb (fun _ => 0) ex_lib (ex_texts crlibm)) = Some f /\
  fst (f (DDocs (RawDocs [DocStr (lit "abcd"); DocNaN]))) = Err ValueError.
Proof. eexists. split; [reflexivity|]. reflexivity. Qed.
