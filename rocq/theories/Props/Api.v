(** C65-C70: the public methods of every converted estimator, whatever it is
    made of. *)
From Coq Require Import String Lia.
From Verif Require Import Model.Py Model.Arith Model.F64 Model.Utils Model.Base Model.Hash Model.DictVec
  Model.Text Model.Tree Model.Ensemble Model.Xgb Model.Linear Model.NaiveBayes
  Model.Dummy Model.Preprocessing Model.Encoders Model.Impute Model.Pipeline Model.Est Model.Convert.
From Verif Require Import Spec.Matrix Spec.Pipeline Spec.Est Spec.Convert Spec.Api Proofs.Lib Proofs.Laws Proofs.Argmax
  Proofs.Est Proofs.Api Proofs.ApiRows Props.Convert Props.Pipeline Props.Trees.

Section Api.
Context {A : arith} {L V : Type} (veq : V -> V -> bool) (vnum : A -> V) (U : textlib).
Notation ob := (obj_of veq vnum U).

(** C65.  predict_log_proba gives the logarithms of what predict_proba gives,
    for every estimator that has both ... *)
Theorem C65_logs : forall (e z : est A L V), ends_in e z -> match z with EPipeline _ | ENb _ => False | _ => True end ->
  forall f g X LP, o_proba (ob e) = Some f -> o_log_proba (ob e) = Some g ->
  (fst (g X) = Ok LP <-> exists P, fst (f X) = Ok P /\ Forall2 (Forall2 log_of) P LP).
Proof. intros e z HE Hz f g X LP. apply (logs_ends veq vnum U e z HE). apply logs_leaf. exact Hz. Qed.

(** ... except naive Bayes, whose probabilities are the exponentials of its
    log-probabilities. *)
Theorem C65_exps : forall (e : est A L V) m, ends_in e (ENb m) ->
  forall f g X P, o_proba (ob e) = Some f -> o_log_proba (ob e) = Some g ->
  (fst (f X) = Ok P <-> exists LP, fst (g X) = Ok LP /\ Forall2 (Forall2 exp_of) LP P).
Proof. intros e m HE f g X P. apply (exps_ends veq vnum U e m HE). Qed.

(** Every estimator with a method is one of these. *)
Theorem C65_ends : forall (e : est A L V) m, offers (ob e) m ->
  exists z, ends_in e z /\ match z with EPipeline _ => False | _ => True end.
Proof. intros e m H. destruct (ends_total veq vnum U e) as [K|K]; [destruct (K m H)|exact K]. Qed.

(** C66.  predict returns labels from classes_ wherever there are classes_
    (and never labels otherwise). *)
Theorem C66_labels : forall (e : est A L V) f X p, o_predict (ob e) = Some f -> fst (f X) = Ok p ->
  match o_classes (ob e) with
  | Some cl => exists l, p = PLab l /\ Forall (fun y => In y cl) l
  | None => match p with PLab _ => False | _ => True end
  end.
Proof.
  intros e f X p Ef E. destruct (ends_total veq vnum U e) as [K|(z & HE & Hz)]; [exfalso; apply (K Predict); cbn; congruence|].
  exact (labels_ends veq vnum U e z HE Hz f X p Ef E).
Qed.

(** C67.  For n rows, one or more, transform gives n rows and leaves n, and
    each of the other methods gives n results. *)
Theorem C67_transform : forall (e : est A L V) X n f, (forall p, part e p -> has_class p) -> batch X n ->
  o_transform (ob e) = Some f ->
  batch (t_after (f X)) n /\ forall Y, t_value (f X) = Ok Y -> batch Y n.
Proof. intros e X n f H HX. exact (proj1 (proj1 (est_fine veq vnum U e H) X n HX) f). Qed.
Theorem C67_predict : forall (e : est A L V) X n f p, (forall p, part e p -> has_class p) -> batch X n ->
  o_predict (ob e) = Some f -> fst (f X) = Ok p -> n_preds p = n.
Proof. intros e X n f p H HX. exact (proj1 (proj2 (proj1 (est_fine veq vnum U e H) X n HX)) f p). Qed.
Theorem C67_predict_proba : forall (e : est A L V) X n f P, (forall p, part e p -> has_class p) -> batch X n ->
  o_proba (ob e) = Some f -> fst (f X) = Ok P -> List.length P = n.
Proof. intros e X n f P H HX. exact (proj1 (proj2 (proj2 (proj1 (est_fine veq vnum U e H) X n HX))) f P). Qed.
Theorem C67_predict_log_proba : forall (e : est A L V) X n f P, (forall p, part e p -> has_class p) -> batch X n ->
  o_log_proba (ob e) = Some f -> fst (f X) = Ok P -> List.length P = n.
Proof. intros e X n f P H HX. exact (proj2 (proj2 (proj2 (proj1 (est_fine veq vnum U e H) X n HX))) f P). Qed.

(** C68.  An ensemble, boosted or averaged, predicts for each row the class of
    the largest probability it reports for that row, the first one on ties;
    so does a pipeline ending in one.  DummyClassifier predicts its index. *)
Theorem C68_ensembles : forall (e z : est A L V), ord_ok A -> ends_in e z ->
  match z with EBagging _ _ _ | EGb _ _ _ _ _ _ | EXgb _ => True | _ => False end ->
  forall f g cl X l, o_predict (ob e) = Some f -> o_proba (ob e) = Some g -> o_classes (ob e) = Some cl ->
  (fst (f X) = Ok (PLab l) <->
   exists P, fst (g X) = Ok P /\ Forall2 (fun p y => exists i, best p i /\ nth_error cl i = Some y) P l).
Proof. intros e z OK HE Hz f g cl X l. apply (picks_ends veq vnum U e z HE). apply picks_leaf; auto. Qed.
Theorem C68_dummy : forall (e : est A L V) d, ord_ok A -> ends_in e (EDummy d) ->
  forall f g X l, o_predict (ob e) = Some f -> o_proba (ob e) = Some g ->
  fst (f X) = Ok (PIdx l) -> exists P, fst (g X) = Ok P /\ Forall2 best P l.
Proof. intros e d OK HE. apply (dummy_picks_ends veq vnum U OK e d HE). Qed.

(** C69.  Which methods a converted estimator has, by the class it was
    converted from. *)
Theorem C69_methods : forall (s : sk A L V) mv e cs ms, convert_estimator s mv = Ok e ->
  In (cs, ms) methods_table -> In (class_name s) (map lit cs) ->
  forall m, offers (ob e) m <-> In m ms.
Proof.
  intros s mv e cs ms H HT HC. apply C51_kind in H. revert H HC. generalize (class_name s). intros nm HF HC.
  destruct (own_methods e) as [ms'|] eqn:EM.
  - assert (ms' = ms) as ->; [|apply own_offers; exact EM].
    assert (E : forallb (fun row => implb (existsb (fun n => mem str_eqb n (map lit (fst row))) (family e))
        (match ms', snd row with
         | [Predict; PredictProba; PredictLogProba], [Predict; PredictProba; PredictLogProba]
         | [Predict; PredictProba], [Predict; PredictProba] | [Predict], [Predict] | [Transform], [Transform] => true
         | _, _ => false end)) methods_table = true).
    { destruct e; try (destruct k); try (destruct m); try discriminate; injection EM as <-; vm_compute; reflexivity. }
    rewrite forallb_forall in E. specialize (E _ HT). cbn [fst snd] in E.
    assert (E' : existsb (fun n => mem str_eqb n (map lit cs)) (family e) = true).
    { apply existsb_exists. exists nm. split; [exact HF|]. apply (mem_in str_eqb str_eqb_ok). exact HC. }
    rewrite E' in E. cbn [implb] in E. clear - E.
    repeat (match goal with H : match ?l with _ => _ end = true |- _ => destruct l; try discriminate end); reflexivity.
  - exfalso. assert (E : forallb (fun row => negb (existsb (fun n => mem str_eqb n (map lit (fst row))) (family e))) methods_table = true).
    { destruct e; try (destruct k); try discriminate; vm_compute; reflexivity. }
    rewrite forallb_forall in E. specialize (E _ HT). cbn [fst] in E.
    assert (E' : existsb (fun n => mem str_eqb n (map lit cs)) (family e) = true).
    { apply existsb_exists. exists nm. split; [exact HF|]. apply (mem_in str_eqb str_eqb_ok). exact HC. }
    rewrite E' in E. discriminate.
Qed.

(** The stochastic gradient classes always predict and offer probabilities
    when the loss recorded in them is contained in "log". *)
Theorem C69_sgd : forall k v coef classes ic multi solver ls mv (e : est A L V),
  In (class_name (SkLinear k v coef classes ic multi solver ls : sk A L V)) (map lit sgd_family) ->
  convert_estimator (SkLinear k v coef classes ic multi solver ls) mv = Ok e ->
  offers (ob e) Predict /\ ~ offers (ob e) Transform /\
  (offers (ob e) PredictProba <-> exists w a b, ls = Some w /\ lit "log" = a ++ w ++ b) /\
  (offers (ob e) PredictLogProba <-> offers (ob e) PredictProba).
Proof.
  intros k v coef classes ic multi solver ls mv e HF H.
  assert (HK : linear_kind k = KSgd).
  { apply (mem_in str_eqb str_eqb_ok) in HF. destruct k; vm_compute in HF; try discriminate; reflexivity. }
  unfold convert_estimator in H. cbn [convert] in H. inv_bind H. inv_bind H. injection H as <-. rewrite HK. cbn [obj_of].
  set (c := linear_convert coef classes ic multi solver ls).
  assert (HP : is_ok (check_proba c) = true <-> exists w a b, ls = Some w /\ lit "log" = a ++ w ++ b).
  { unfold check_proba, c. cbn [linear_convert l_loss]. destruct ls as [w|]; cbn [getattr bind].
    - split.
      + intro E1. destruct (str_in w (lit "log")) eqn:E2; [|discriminate]. apply str_in_ok in E2. destruct E2 as (u & v' & E2). exists w, u, v'. auto.
      + intros (w' & u & v' & E1 & E2). injection E1 as <-. rewrite (proj2 (str_in_ok w (lit "log"))); [reflexivity|]. eauto.
    - split; [discriminate|]. intros (w & u & v' & E1 & _). discriminate. }
  destruct (is_ok (check_proba c)); cbn [offers classifier o_transform o_predict o_proba o_log_proba Est.reads]; (split; [discriminate|]);
    (split; [intro K; apply K; reflexivity|]); (split; [|split; [try discriminate; auto|try discriminate; auto]]).
  - split; [intros _; apply HP; reflexivity|discriminate].
  - split; [intro K; destruct K; reflexivity|]. intro K. apply HP in K. discriminate.
Qed.

(** A pipeline has the methods of its last step. *)
Theorem C69_pipeline : forall pre nm (e : est A L V) m, offers (ob (EPipeline (pre ++ [(nm, e)]))) m <-> offers (ob e) m.
Proof.
  intros pre nm e m. cbn [obj_of]. rewrite map_app. cbn [map fst snd].
  destruct (Props.Pipeline.C48_methods (map (fun ne => (fst ne, ob (snd ne))) pre) nm (ob e)) as (H1 & H2 & H3 & H4 & _).
  destruct m; cbn [offers]; tauto.
Qed.

(** C70.  transform returns the very object it was given only from a
    StandardScaler that does not centre, a TfidfTransformer that does not
    normalise, or a pipeline of such steps. *)
Theorem C70_same : forall (e : est A L V) f X, o_transform (ob e) = Some f -> t_out (f X) = Ok None -> passes_input e.
Proof. exact (same_passes veq vnum U). Qed.
(** Even then that object holds the result. *)
Theorem C70_standard_scaler : forall s f X, o_transform (ob (EStd (L:=L) s)) = Some f ->
  t_value (f (DNum X)) = (Y <- std_transform s X ;; Ok (DNum Y)).
Proof. intros s f X E. injection E as <-. apply std_value. Qed.
Theorem C70_tfidf : forall t f X, o_transform (ob (ETfidf (L:=L) t)) = Some f ->
  t_value (f (DNum X)) = (Y <- fst (tfidf_transform t X) ;; Ok (DNum Y)) /\
  t_after (f (DNum X)) = DNum (snd (tfidf_transform t X)).
Proof.
  intros t f X E. injection E as <-. split; [apply tfidf_value|]. unfold tfidf_method. destruct (tfidf_transform t X). reflexivity.
Qed.
End Api.
Print Assumptions C65_logs.
Print Assumptions C65_exps.
Print Assumptions C65_ends.
Print Assumptions C66_labels.
Print Assumptions C67_transform.
Print Assumptions C67_predict.
Print Assumptions C67_predict_proba.
Print Assumptions C67_predict_log_proba.
Print Assumptions C68_ensembles.
Print Assumptions C68_dummy.
Print Assumptions C69_methods.
Print Assumptions C69_sgd.
Print Assumptions C69_pipeline.
Print Assumptions C70_same.
Print Assumptions C70_standard_scaler.
Print Assumptions C70_tfidf.

(** A scaler that subtracts 1 and, in a nested pipeline, one that does
    nothing, followed by a dummy classifier or a forest of one tree. *)
Section Examples.
  Variable m : libm.
  Let A := F64 m.
  Definition ex_dummy : est A nat nat := EDummy {| dm_prior := [zero : A] |}.
  Definition ex_nested (z : est A nat nat) : est A nat nat :=
    EPipeline [(lit "s", ex_std m); (lit "p", EPipeline [(lit "i", ex_id m); (lit "c", z)])].
  Definition ex_forest : est A nat nat := EBagging [ETree (stump m)] None [7; 9].
  Example C65_ends_ex : forall z, ends_in (ex_nested z) z.
  Proof. intro z. apply (ends_last [(lit "s", ex_std m)] (lit "p")). apply (ends_last [(lit "i", ex_id m)] (lit "c")). constructor. Qed.
  Example C65_ex : exists f g, o_proba (ex_obj m (ex_nested ex_dummy)) = Some f /\ o_log_proba (ex_obj m (ex_nested ex_dummy)) = Some g /\
    fst (f (ex_X m)) = Ok [[zero : A]; [zero : A]] /\ fst (g (ex_X m)) = Ok [[ninf : A]; [ninf : A]].
  Proof. eexists. eexists. split; [reflexivity|]. split; [reflexivity|]. split; vm_compute; reflexivity. Qed.
  Example C66_ex : exists f, o_predict (ex_obj m (ex_nested ex_forest)) = Some f /\ fst (f (ex_X m)) = Ok (PLab [7; 7]) /\
    o_classes (ex_obj m (ex_nested ex_forest)) = Some [7; 9].
  Proof. eexists. split; [reflexivity|]. split; [|reflexivity]. apply ex_labels_ok. vm_compute. reflexivity. Qed.
  Example C67_ex : batch (ex_X m) 2 /\ forall p, part (ex_nested ex_forest) p -> has_class p.
  Proof.
    assert (KP : forall steps (p : est A nat nat), part (EPipeline steps) p -> p = EPipeline steps \/ exists nm e, In (nm, e) steps /\ part e p).
    { intros steps p H. inversion H; subst; eauto. }
    assert (KB : forall ms fs cl (p : est A nat nat), part (EBagging ms fs cl) p -> p = EBagging ms fs cl \/ exists e, In e ms /\ part e p).
    { intros ms fs cl p H. inversion H; subst; eauto. }
    assert (KL : forall e p : est A nat nat, match e with EStd _ | ETree _ => True | _ => False end -> part e p -> p = e).
    { intros e p He H. inversion H; subst; try contradiction; reflexivity. }
    split; [split; [lia|reflexivity]|]. intros p H. apply KP in H. destruct H as [->|(nm & e & [E|[E|[]]] & H)]; [exact I| |]; apply (f_equal snd) in E; cbn [snd] in E; subst e.
    - apply KL in H; [subst; exact I|exact I].
    - apply KP in H. destruct H as [->|(nm' & e & [E|[E|[]]] & H)]; [exact I| |]; apply (f_equal snd) in E; cbn [snd] in E; subst e.
      + apply KL in H; [subst; exact I|exact I].
      + apply KB in H. destruct H as [->|(e & [E|[]] & H)]; [exact I|]. subst e. apply KL in H; [subst; exact I|exact I].
  Qed.
  Example C68_ex : exists f g, o_predict (ex_obj m (ex_nested ex_forest)) = Some f /\ o_proba (ex_obj m (ex_nested ex_forest)) = Some g /\
    fst (f (ex_X m)) = Ok (PLab [7; 7]) /\ exists P, fst (g (ex_X m)) = Ok P /\ List.length P = 2.
  Proof.
    eexists. eexists. split; [reflexivity|]. split; [reflexivity|]. 
    assert (E : fst (match o_predict (ex_obj m (ex_nested ex_forest)) with Some f => f | None => fun X => (Err AttributeError, X) end (ex_X m)) = Ok (PLab [7; 7])).
    { apply ex_labels_ok. vm_compute. reflexivity. }
    split; [exact E|].
    apply (proj1 (C68_ensembles Nat.eqb (fun _ => 0) ex_U (ex_nested ex_forest) ex_forest (F64_ord m) (C65_ends_ex _) I _ _ [7; 9] (ex_X m) [7; 7] eq_refl eq_refl eq_refl)) in E.
    destruct E as (P & E & HP). exists P. split; [exact E|]. apply Forall2_len in HP. exact HP.
  Qed.
  Example C69_ex : exists e, convert_estimator (SkLinear SGDClassifier None [[one : A]] [7; 8] None None None (Some (lit "log")) : sk A nat nat) None = Ok e /\
    offers (ex_obj m e) PredictProba /\ In (class_name (SkLinear SGDClassifier None [[one : A]] [7; 8] None None None (Some (lit "log")) : sk A nat nat)) (map lit sgd_family).
  Proof. eexists. split; [reflexivity|]. split; [discriminate|]. left. reflexivity. Qed.
  Example C69_table_ex : In (class_name (SkTree ExtraTreeClassifier None (stump m) : sk A nat nat)) (map lit (fst (hd ([], []) methods_table))) /\
    exists e, convert_estimator (SkTree ExtraTreeClassifier None (stump m) : sk A nat nat) None = Ok e.
  Proof. split; [right; left; reflexivity|eexists; reflexivity]. Qed.
  Example C70_ex : exists f, o_transform (ex_obj m (ex_id m)) = Some f /\ t_out (f (ex_X m)) = Ok None.
  Proof. eexists. split; [reflexivity|]. reflexivity. Qed.
End Examples.
