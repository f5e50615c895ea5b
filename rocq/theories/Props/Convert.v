(** C51-C53, C63, C64: conversion (pure_sklearn/map.py, utils.py and all
    constructors). *)
From Coq Require Import String.
From Verif Require Import Model.Py Model.Arith Model.Utils Model.Base Model.DictVec Model.Text
  Model.Tree Model.Ensemble Model.Xgb Model.Linear Model.NaiveBayes Model.Dummy Model.Preprocessing
  Model.Encoders Model.Impute Model.Hash Model.Pipeline Model.Est Model.Convert Model.Objects.
From Verif Require Import Spec.Xgb Spec.Convert Proofs.Lib Proofs.Xgb Proofs.Convert.

(** C51.  The object is converted by the class of its own name with suffix
    Pure, found in the one module that defines it. *)
Theorem C51_listed : forall nm, In nm supported ->
  exists m classes, dispatch nm = Ok (m, nm ++ lit "Pure") /\
    In (m, classes) MODULES /\ In (nm ++ lit "Pure") classes /\
    forall m' classes', In (m', classes') MODULES -> In (nm ++ lit "Pure") classes' -> m' = m.
Proof.
  intros nm H.
  assert (E : forallb (fun nm =>
      match dispatch nm with
      | Ok (m, c) => str_eqb c (nm ++ lit "Pure") &&
          existsb (fun mc => str_eqb (fst mc) m && mem str_eqb c (snd mc)) MODULES &&
          forallb (fun mc => str_eqb (fst mc) m || negb (mem str_eqb c (snd mc))) MODULES
      | Err _ => false
      end) supported = true) by (vm_compute; reflexivity).
  rewrite forallb_forall in E. specialize (E nm H). destruct (dispatch nm) as [[m c]|]; [|discriminate].
  apply andb_prop in E. destruct E as [E E3]. apply andb_prop in E. destruct E as [E1 E2].
  apply str_eqb_ok in E1. subst c. apply existsb_exists in E2. destruct E2 as ([m' cl] & Hin & E2). cbn [fst snd] in E2.
  apply andb_prop in E2. destruct E2 as [E2 E4]. apply str_eqb_ok in E2. subst m'. apply (mem_in str_eqb str_eqb_ok) in E4.
  exists m, cl. repeat split; auto. intros m' cl' H1 H2. rewrite forallb_forall in E3. specialize (E3 _ H1). cbn [fst snd] in E3.
  apply orb_prop in E3. destruct E3 as [E3|E3]; [apply str_eqb_ok in E3; auto|].
  apply (mem_in str_eqb str_eqb_ok) in H2. rewrite H2 in E3. discriminate.
Qed.
Print Assumptions C51_listed.

(** Any other class is refused with ValueError, whatever the second argument. *)
Theorem C51_unlisted : forall (A : arith) (L V : Type) (s : sk A L V) mv,
  ~ In (class_name s) supported -> convert_estimator s mv = Err ValueError.
Proof.
  intros A L V s mv H. assert (E : dispatch (class_name s) = Err ValueError).
  { unfold dispatch. rewrite <- supported_keys in H. apply (dlookup_none str_eqb str_eqb_ok) in H. rewrite H. reflexivity. }
  unfold convert_estimator. destruct s; cbn [convert]; rewrite E; reflexivity.
Qed.
Print Assumptions C51_unlisted.

(** The result is of the kind the class name calls for. *)
Theorem C51_kind : forall (A : arith) (L V : Type) (s : sk A L V) mv e,
  convert_estimator s mv = Ok e -> In (class_name s) (family e).
Proof.
  intros A L V s mv e H. unfold convert_estimator in H.
  assert (K : forall nm (l : list pystr), mem str_eqb nm l = true -> In nm l) by (intros nm l; apply (mem_in str_eqb str_eqb_ok)).
  destruct s; cbn [convert] in H; inv_bind H;
    try (inv_bind H); try (injection H as <-); try discriminate;
    try (destruct k); try (destruct m); try (destruct onehot);
    try (apply K; vm_compute; reflexivity);
    try (inv_bind H; try (injection H as <-); try (apply K; vm_compute; reflexivity));
    try (inv_bind H; try (injection H as <-); try (apply K; vm_compute; reflexivity)).
  all: inv_bind H; injection H as <-; apply K; vm_compute; reflexivity.
Qed.
Print Assumptions C51_kind.

(** A listed name and an unlisted one. *)
Example C51_cases : In (lit "RidgeClassifier") supported /\ ~ In (lit "SVC") supported /\
  dispatch (lit "RidgeClassifier") = Ok (lit "pure_sklearn.linear_model", lit "RidgeClassifierPure").
Proof.
  split; [right; left; reflexivity|]. split; [|vm_compute; reflexivity].
  intro H. apply (mem_in str_eqb str_eqb_ok) in H. vm_compute in H. discriminate.
Qed.

(** C52.  A constructor succeeds only if every object reachable from the new
    one is one of the allowed kinds ... *)
Theorem C52_constructed : forall body h limit h' a,
  construct body h limit = Ok (h', a) -> forall k b, reaches h' k a b -> pure_kind h' b.
Proof.
  intros body h limit h' a H k b Hr. unfold construct in H. inv_bind H. inv_bind H. injection H as ->. destruct a1.
  cbn [fst snd] in E0. apply (proj1 (check_types_iff h' limit a) E0 k b Hr).
Qed.
Print Assumptions C52_constructed.

(** ... and exactly then, provided no chain of references is as long as
    Python's recursion limit: a cycle is refused. *)
Theorem C52_check : forall h limit a,
  check_types h limit a = Ok tt <-> (forall k b, reaches h k a b -> k < limit /\ pure_kind h b).
Proof. exact check_types_iff. Qed.
Print Assumptions C52_check.

(** A nested object that passes, and the same with a foreign object deep
    inside, which does not. *)
Definition graph (leaf : pyobj) : heap :=
  [OPure [(lit "classes_", 1); (lit "d", 2)]; OSeq true [3; 4] []; ODict true [(3, 1)] []; OScalar true; leaf].
Example C52_cases : check_types (graph ONone) 900 0 = Ok tt /\ check_types (graph OOther) 900 0 = Err ValueError /\
  reaches (graph OOther) 3 0 4 /\ check_types (graph (OSeq true [0] [])) 900 0 = Err OtherException.
Proof.
  split; [reflexivity|]. split; [reflexivity|]. split; [|vm_compute; reflexivity].
  eapply reaches_S; [eapply (refers_attr _ 0); [reflexivity|right; left; reflexivity]|].
  eapply reaches_S; [eapply (refers_value _ 2); [reflexivity|left; reflexivity]|].
  eapply reaches_S; [eapply (refers_elem _ 1); [reflexivity|right; left; reflexivity]|constructor].
Qed.

(** The check is by isinstance, so C52 does not hold of exact types: it lets
    through an instance of a subclass of float, such as numpy.float64, and does
    not look at the attributes of an instance of a subclass of list. *)
Theorem C52_exact_refuted : exists h a,
  (forall limit, 2 <= limit -> construct (fun h => Ok (h, a)) h limit = Ok (h, a)) /\
  (exists b, reaches h 1 a b /\ nth_error h b = Some (OScalar false)) /\
  (exists b c attrs, reaches h 1 a b /\ nth_error h b = Some (OSeq false [] attrs) /\
     In (lit "dtype", c) attrs /\ nth_error h c = Some OOther).
Proof.
  exists [OPure [(lit "x", 1); (lit "rows", 2)]; OScalar false; OSeq false [] [(lit "dtype", 3)]; OOther], 0.
  split; [|split].
  - intros [|[|n]] H; try lia. reflexivity.
  - exists 1. split; [|reflexivity]. eapply reaches_S; [|constructor]. eapply refers_attr; [reflexivity|left; reflexivity].
  - exists 2, 3. eexists. split; [eapply reaches_S; [|constructor]; eapply refers_attr; [reflexivity|right; left; reflexivity]|].
    repeat split. left. reflexivity.
Qed.
Print Assumptions C52_exact_refuted.

(** C53.  Release numbers are compared numerically, component by component: an
    estimator below the required minimum is refused; otherwise it is accepted,
    with a warning exactly when it is below 0.20. *)
Theorem C53_release : forall v a m b, release v a -> release m b ->
  (earlier a b -> check_version (Some v) (Some m) = Err OtherException) /\
  (~ earlier a b -> exists warned, check_version (Some v) (Some m) = Ok warned /\
                                   (warned = true <-> earlier a [0; 20])).
Proof.
  intros v a m b Ha Hb. unfold check_version.
  destruct (version_lt_release v a m b Ha Hb) as (r & -> & Hr). cbn [bind].
  assert (R20 : release (lit "0.20") [0; 20]).
  { apply (release_more (lit "0") 0 (lit "20") [20]); [apply (numeral_one 0); lia|]. constructor.
    apply (numeral_more (lit "2") 2 0); [apply (numeral_one 2)|]; lia. }
  destruct (version_lt_release v a _ _ Ha R20) as (q & Eq & Hq). split; intro H.
  - apply Hr in H. subst r. reflexivity.
  - destruct r; [exfalso; apply H, Hr; auto|]. exists q. auto.
Qed.
Print Assumptions C53_release.

(** Without a requirement it is always accepted, and warned about below 0.20;
    so is an object that records no version. *)
Theorem C53_no_minimum : forall v a, release v a ->
  exists warned, check_version (Some v) None = Ok warned /\ (warned = true <-> earlier a [0; 20]).
Proof.
  intros v a Ha. assert (R0 : release (lit "0") [0]) by (constructor; apply (numeral_one 0); lia).
  destruct (C53_release v a _ _ Ha R0) as [_ H]. destruct H as (w & E & Hw).
  - intro H. inversion H; subst; [inversion Ha|lia|]. match goal with K : earlier _ [] |- _ => inversion K end.
  - exists w. split; auto. unfold check_version in *. inv_bind E. destruct a0; [discriminate|]. auto.
Qed.
Print Assumptions C53_no_minimum.
Theorem C53_unversioned : forall m, check_version None m = Ok true.
Proof. reflexivity. Qed.
Print Assumptions C53_unversioned.

(** A pre-release whose release number is a proper prefix of the minimum is
    neither accepted nor refused: the comparison raises TypeError.  Any other
    is treated as the release. *)
Theorem C53_prerelease : forall v a m b, prerelease v a -> release m b ->
  ((exists c cs, b = a ++ c :: cs) -> check_version (Some v) (Some m) = Err TypeError) /\
  (~ (exists c cs, b = a ++ c :: cs) -> earlier a b -> check_version (Some v) (Some m) = Err OtherException).
Proof.
  intros v a m b (v0 & c & t & H0 & Hc & Hv) Hb.
  assert (Cc : char_class c = 1).
  { unfold char_class, is_digit. replace ((48 <=? c)%Z && (c <=? 57)%Z) with false by lia. replace ((97 <=? c)%Z && (c <=? 122)%Z) with true by lia. reflexivity. }
  destruct (letter_runs c t Cc) as (w & rest & Ew).
  assert (Pv : vparse v = map (fun n => VInt (Z.of_nat n)) a ++ VStr (c :: w) :: rest).
  { rewrite <- Ew. destruct Hv as [->| ->].
    - apply vparse_release; auto. cbn. rewrite Cc. discriminate.
    - rewrite (vparse_release v0 a (46%Z :: c :: t)); auto; [|cbn; discriminate]. f_equal. apply vparse_dot. cbn. rewrite Cc. discriminate. }
  assert (Nv : exists c' t', v = c' :: t').
  { destruct (release_head _ _ H0) as (c' & t' & -> & _). destruct Hv as [->| ->]; cbn; eauto. }
  destruct Nv as (c' & t' & Nv). destruct (release_head _ _ Hb) as (c'' & t'' & -> & _).
  pose proof (vparse_release _ _ [] Hb I) as Pb. rewrite app_nil_r in Pb. change (vparse []) with (@nil vtok) in Pb. rewrite app_nil_r in Pb.
  assert (E : version_lt v (c'' :: t'') = vlt (map (fun n => VInt (Z.of_nat n)) a ++ VStr (c :: w) :: rest) (map (fun n => VInt (Z.of_nat n)) b)).
  { rewrite <- Pv, <- Pb, Nv. reflexivity. }
  destruct (vlt_pre a b (c :: w) rest) as (r & Er & H1 & H2). rewrite Er in E. unfold check_version. rewrite E. split.
  - intro H. rewrite (H1 H). reflexivity.
  - intros H He. destruct (H2 H) as (q & -> & Hq). apply Hq in He. subst q. reflexivity.
Qed.
Print Assumptions C53_prerelease.

(** Only GradientBoostingClassifier has a requirement: it is refused below
    0.21.0.  (For the others see C63_parts.) *)
Theorem C53_gradient_boosting : forall (A : arith) (L V : Type) v a ts init ls lr nf cl mv, release v a -> earlier a [0; 21; 0] ->
  convert_estimator (SkGb (Some v) ts init ls lr nf cl : sk A L V) mv = Err OtherException.
Proof.
  intros A L V v a ts init ls lr nf cl mv Ha H.
  assert (R : release (lit "0.21.0") [0; 21; 0]).
  { apply (release_more (lit "0") 0 (lit "21.0") [21; 0]); [apply (numeral_one 0); lia|].
    apply (release_more (lit "21") 21 (lit "0") [0]); [apply (numeral_more (lit "2") 2 1); [apply (numeral_one 2)|]; lia|].
    constructor. apply (numeral_one 0). lia. }
  unfold convert_estimator. cbn [convert]. destruct (class_ok (SkGb (Some v) ts init ls lr nf cl : sk A L V)) as [mc ->]; [discriminate|].
  cbn [bind]. rewrite (proj1 (C53_release v a _ _ Ha R) H). reflexivity.
Qed.
Print Assumptions C53_gradient_boosting.

(** The minimum passed to convert_estimator is not honoured. *)
Theorem C53_minimum_refuted : forall (A : arith) (L V : Type),
  (forall (s : sk A L V) m m', convert_estimator s m = convert_estimator s m') /\
  check_version (Some (lit "0.19.2")) (Some (lit "0.22")) = Err OtherException /\
  convert_estimator (SkNormalizer (Some (lit "0.19.2")) (lit "l2") : sk A L V) (Some (lit "0.22")) = Ok (ENormalizer (lit "l2")).
Proof. intros A L V. split; [reflexivity|]. split; reflexivity. Qed.
Print Assumptions C53_minimum_refuted.

(** 0.19.2 and 0.21.3 are releases, 0.9 is before 0.20, 0.21rc1 is a
    pre-release of 0.21, a proper prefix of 0.21.0. *)
Example C53_cases :
  release (lit "0.19.2") [0; 19; 2] /\ release (lit "0.21.3") [0; 21; 3] /\ earlier [0; 9] [0; 20] /\
  ~ earlier [0; 21; 3] [0; 21; 0] /\ prerelease (lit "0.21rc1") [0; 21] /\
  check_version (Some (lit "0.21rc1")) (Some (lit "0.21.0")) = Err TypeError /\
  check_version (Some (lit "0.20.4")) (Some (lit "0.21.0")) = Err OtherException /\
  check_version (Some (lit "0.21.3")) (Some (lit "0.21.0")) = Ok false /\
  check_version (Some (lit "0.9")) None = Ok true.
Proof.
  assert (N0 : numeral (lit "0") 0) by (apply (numeral_one 0); lia).
  assert (N2 : numeral (lit "2") 2) by (apply (numeral_one 2); lia).
  assert (N3 : numeral (lit "3") 3) by (apply (numeral_one 3); lia).
  assert (N1 : numeral (lit "1") 1) by (apply (numeral_one 1); lia).
  assert (N19 : numeral (lit "19") 19) by (apply (numeral_more (lit "1") 1 9); auto; lia).
  assert (N21 : numeral (lit "21") 21) by (apply (numeral_more (lit "2") 2 1); auto; lia).
  split; [apply (release_more (lit "0") 0 (lit "19.2")); auto; apply (release_more (lit "19") 19 (lit "2")); auto; constructor; auto|].
  split; [apply (release_more (lit "0") 0 (lit "21.3")); auto; apply (release_more (lit "21") 21 (lit "3")); auto; constructor; auto|].
  split; [apply earlier_later, earlier_here; lia|].
  split; [intro H; repeat match goal with H : earlier (_ :: _) (_ :: _) |- _ => inversion H; clear H; subst; try lia end; inversion H2|].
  split; [exists (lit "0.21"), 114%Z, (lit "c1"); split; [|split; [lia|left; reflexivity]];
          apply (release_more (lit "0") 0 (lit "21")); auto; constructor; auto|].
  repeat split.
Qed.

(** C63.  An estimator, composite or not, is converted exactly when each of its
    parts, at any depth, records acceptable versions and uses an implemented
    configuration. *)
Theorem C63_parts : forall (A : arith) (L V : Type) (s : sk A L V) mv,
  (exists e, convert_estimator s mv = Ok e) <-> forall p, skpart s p -> versions_accepted p /\ implemented p.
Proof. intros A L V s mv. apply convert_iff. Qed.
Print Assumptions C63_parts.

(** The steps of a pipeline, the members of a union or ensemble, the init
    estimator and the trees are converted one by one, keeping names and order;
    weights, classes and feature subsets are kept. *)
Theorem C63_pipeline : forall (A : arith) (L V : Type) v steps mv (e : est A L V),
  convert_estimator (SkPipeline v steps) mv = Ok e <->
  accepted v None /\ exists es, e = EPipeline es /\
    Forall2 (fun ns ne => fst ne = fst ns /\ convert_estimator (snd ns) mv = Ok (snd ne)) steps es.
Proof.
  intros A L V v steps mv e. unfold convert_estimator. cbn [convert].
  destruct (class_ok (SkPipeline v steps)) as [mc ->]; [discriminate|]. cbn [bind]. split.
  - intro H. inv_bind H. inv_bind H. injection H as <-. split; [eexists; eauto|]. exists a0. split; auto. apply named_shape. auto.
  - intros ([b ->] & es & -> & F). cbn [bind]. apply named_shape in F. rewrite F. reflexivity.
Qed.
Print Assumptions C63_pipeline.
Theorem C63_union : forall (A : arith) (L V : Type) v ms w mv (e : est A L V),
  convert_estimator (SkUnion v ms w) mv = Ok e <->
  accepted v None /\ exists es, e = EUnion es w /\
    Forall2 (fun ns ne => fst ne = fst ns /\ convert_estimator (snd ns) mv = Ok (snd ne)) ms es.
Proof.
  intros A L V v ms w mv e. unfold convert_estimator. cbn [convert].
  destruct (class_ok (SkUnion v ms w)) as [mc ->]; [discriminate|]. cbn [bind]. split.
  - intro H. inv_bind H. inv_bind H. injection H as <-. split; [eexists; eauto|]. exists a0. split; auto. apply named_shape. auto.
  - intros ([b ->] & es & -> & F). cbn [bind]. apply named_shape in F. rewrite F. reflexivity.
Qed.
Print Assumptions C63_union.
Theorem C63_bagging : forall (A : arith) (L V : Type) k v ms fs cl mv (e : est A L V),
  convert_estimator (SkBagging k v ms fs cl) mv = Ok e <->
  accepted v None /\ exists es, e = EBagging es fs cl /\ Forall2 (fun s e => convert_estimator s mv = Ok e) ms es.
Proof.
  intros A L V k v ms fs cl mv e. unfold convert_estimator. cbn [convert].
  destruct (class_ok (SkBagging k v ms fs cl)) as [mc ->]; [discriminate|]. cbn [bind]. split.
  - intro H. inv_bind H. inv_bind H. injection H as <-. split; [eexists; eauto|]. exists a0. split; auto.
    apply seqM_ok in E0. rewrite Forall2_map_l in E0. auto.
  - intros ([b ->] & es & -> & F). cbn [bind]. assert (E : seqM (map convert ms) = Ok es) by (apply seqM_ok, Forall2_map_l; auto).
    rewrite E. reflexivity.
Qed.
Print Assumptions C63_bagging.
Theorem C63_gradient_boosting : forall (A : arith) (L V : Type) v ts init ls lr nf cl mv (e : est A L V),
  convert_estimator (SkGb v ts init ls lr nf cl) mv = Ok e ->
  exists i l, e = EGb (map (map snd) ts) i lr nf l cl /\
    match init with
    | NoInit => i = None
    | InitEst s => exists e', i = Some e' /\ convert_estimator s mv = Ok e'
    | InitStr _ => False
    end /\
    l = (if str_eqb ls (lit "exponential") then LExponential
         else if (List.length cl =? 2)%nat then LBinary else LMulti (List.length cl)).
Proof.
  intros A L V v ts init ls lr nf cl mv e. unfold convert_estimator. cbn [convert].
  destruct (class_ok (SkGb v ts init ls lr nf cl)) as [mc ->]; [discriminate|]. cbn [bind]. intro H.
  inv_bind H. inv_bind H. inv_bind H. inv_bind H. injection H as <-. exists a1, a2. split; [|split].
  - f_equal. apply mapM_Forall2 in E0. clear - E0. induction E0 as [|row r ts rs Hr _ IH]; [reflexivity|]. cbn [map]. f_equal; auto.
    apply mapM_Forall2 in Hr. clear - Hr. induction Hr as [|vt t row r Hv _ IH]; [reflexivity|]. cbn [map]. f_equal; auto.
    inv_bind Hv. inv_bind Hv. injection Hv as <-. reflexivity.
  - destruct init; [congruence| |]; inv_bind E1; [injection E1 as <-; eauto|discriminate].
  - unfold gb_loss_of in E2. destruct (str_eqb ls (lit "deviance")) eqn:Ed.
    + apply str_eqb_ok in Ed. subst ls. change (str_eqb (lit "deviance") (lit "exponential")) with false. cbv match.
      destruct (2 <? List.length cl)%nat eqn:El.
      * injection E2 as <-. replace (List.length cl =? 2)%nat with false by lia. reflexivity.
      * inv_bind E2. apply guard_ok in E3. rewrite E3. congruence.
    + destruct (str_eqb ls (lit "exponential")); [|discriminate]. inv_bind E2. congruence.
Qed.
Print Assumptions C63_gradient_boosting.

(** C63 is false of 'passthrough', 'drop' and None steps and of init='zero',
    which scikit-learn accepts: an estimator with such a part, at any depth, is
    never converted. *)
Theorem C63_refuted : forall (A : arith) (L V : Type) (s p : sk A L V) mv, skpart s p ->
  (p = SkOther (lit "str") \/ p = SkOther (lit "NoneType") \/
   exists v ts w ls lr nf cl, p = SkGb v ts (InitStr w) ls lr nf cl) ->
  forall e, convert_estimator s mv <> Ok e.
Proof.
  intros A L V s p mv Hp H e E. destruct (proj1 (C63_parts A L V s mv) (ex_intro _ e E) p Hp) as [_ K].
  destruct H as [->|[->|(v & ts & w & ls & lr & nf & cl & ->)]]; cbn [implemented] in K; try contradiction.
  destruct K as [K _]. apply (K w eq_refl).
Qed.
Print Assumptions C63_refuted.
(** For a step of the pipeline itself, the exception is ValueError. *)
Theorem C63_refuted_steps : forall (A : arith) (L V : Type) v nm c (post : list (pystr * sk A L V)) s0 e0 nm0 mv,
  accepted v None -> convert_estimator s0 mv = Ok e0 -> c = lit "str" \/ c = lit "NoneType" ->
  convert_estimator (SkPipeline v ((nm0, s0) :: (nm, SkOther c) :: post)) mv = Err ValueError /\
  convert_estimator (SkUnion v ((nm0, s0) :: (nm, SkOther c) :: post) None) mv = Err ValueError.
Proof.
  intros A L V v nm c post s0 e0 nm0 mv [b Hv] H0 Hc. unfold convert_estimator in *. cbn [convert].
  destruct (class_ok (SkPipeline v ((nm0, s0) :: (nm, SkOther c) :: post))) as [mc ->]; [discriminate|].
  destruct (class_ok (SkUnion v ((nm0, s0) :: (nm, SkOther c) :: post) None)) as [mc' ->]; [discriminate|].
  cbn [bind]. rewrite Hv. cbn [bind map fst snd]. rewrite H0. cbn [bind]. cbn [convert class_name].
  destruct Hc as [-> | ->]; split; reflexivity.
Qed.
Print Assumptions C63_refuted_steps.

(** A pipeline of a union and a forest is converted; with a 'passthrough' step
    it is not. *)
Definition a_tree {A : arith} : tree A nat :=
  {| t_left := [-1]%Z; t_right := [-1]%Z; t_feature := [-2]%Z; t_thr := [zero]; Tree.t_value := [[one; zero]]; t_classes := [0; 1] |}.
Definition composite {A : arith} (extra : list (pystr * sk A nat nat)) : sk A nat nat :=
  SkPipeline (Some (lit "0.22.1"))
    ([(lit "u", SkUnion (Some (lit "0.22.1")) [(lit "n", SkNormalizer (Some (lit "0.22.1")) (lit "l2"));
                                               (lit "m", SkMaxAbs (Some (lit "0.22.1")) None)] None)] ++ extra ++
     [(lit "f", SkBagging RandomForestClassifier (Some (lit "0.22.1"))
                  [SkTree DecisionTreeClassifier (Some (lit "0.22.1")) a_tree] None [0; 1])]).
Example C63_cases : forall (A : arith),
  (exists e, convert_estimator (composite (A:=A) []) None = Ok e) /\
  convert_estimator (composite (A:=A) [(lit "p", SkOther (lit "str"))]) None = Err ValueError /\
  accepted (Some (lit "0.22.1")) None.
Proof. intro A. split; [eexists; reflexivity|]. split; [reflexivity|]. exists false. reflexivity. Qed.

(** C64.  A configuration the converted classes do not implement is refused,
    whether it is that of the estimator itself or of a part of it. *)
Theorem C64_refused : forall (A : arith) (L V : Type) (s p : sk A L V) mv, skpart s p ->
  match p with
  | SkEncoder _ _ _ _ _ drop _ => drop = true
  | SkDummy _ us st _ => match us with Some u => u <> lit "prior" | None => st <> lit "prior" end
  | SkXgb x => ~ In (xs_objective x) [lit "binary:logistic"; lit "multi:softprob"] \/
               xs_booster x <> lit "gbtree" \/ xs_df x = None
  | SkGb _ _ _ ls _ _ cl => ~ In ls [lit "deviance"; lit "exponential"] \/ List.length cl < 2 \/
               (ls = lit "exponential" /\ List.length cl <> 2)
  | SkCount _ callables _ | SkHashVec _ callables _ => callables = true
  | SkTfidf _ idf _ => idf = None
  | SkTfidfVec _ callables _ _ idf _ => callables = true \/ idf = None
  | _ => False
  end -> exists x, convert_estimator s mv = Err x.
Proof.
  intros A L V s p mv Hp H. destruct (convert_estimator s mv) as [e|x] eqn:E; [|eauto]. exfalso.
  destruct (proj1 (C63_parts A L V s mv) (ex_intro _ e E) p Hp) as [_ K].
  destruct p; cbn [implemented] in K; try contradiction.
  - destruct K as [_ K]. cbn [In] in H. destruct H as [H|[H|[H1 H2]]]; [| |subst ls]; destruct K as [[K1 K2]|[K1 K2]]; subst; try lia; try (apply H; auto; fail).
    discriminate.
  - destruct K as (K1 & K2 & df & K3 & _). cbn [In] in H. destruct H as [H|[H|H]]; [apply H; intuition|congruence|congruence].
  - destruct K as [->|[-> ->]]; apply H; auto.
  - congruence.
  - congruence.
  - destruct K as [K1 K2]. destruct H; congruence.
  - congruence.
Qed.
Print Assumptions C64_refused.

(** The exceptions of the simplest cases. *)
Theorem C64_errors : forall (A : arith) (L V : Type) mv v, accepted v None ->
  (forall oh dt cats sp un, convert_estimator (SkEncoder oh v dt cats sp true un : sk A L V) mv = Err ValueError) /\
  (forall st prior, st <> lit "prior" -> convert_estimator (SkDummy v None st prior : sk A L V) mv = Err ValueError) /\
  (forall c, convert_estimator (SkCount v true c : sk A L V) mv = Err ValueError) /\
  (forall x, ~ In (xs_objective x) [lit "binary:logistic"; lit "multi:softprob"] ->
     convert_estimator (SkXgb x : sk A L V) mv = Err ValueError) /\
  (forall t, convert_estimator (SkTfidf v None t : sk A L V) mv = Err AttributeError).
Proof.
  intros A L V mv v [b Hv]. unfold convert_estimator. repeat split; intros; cbn [convert].
  - destruct (class_ok (SkEncoder oh v dt cats sp true un : sk A L V)) as [mc ->]; [discriminate|]. cbn [bind]. rewrite Hv. reflexivity.
  - destruct (class_ok (SkDummy v None st prior : sk A L V)) as [mc ->]; [discriminate|]. cbn [bind]. rewrite Hv. cbn [bind].
    unfold dummy_convert. destruct (str_eqb st (lit "prior")) eqn:E; [apply str_eqb_ok in E; congruence|reflexivity].
  - destruct (class_ok (SkCount v true c : sk A L V)) as [mc ->]; [discriminate|]. cbn [bind]. rewrite Hv. reflexivity.
  - destruct (class_ok (SkXgb x : sk A L V)) as [mc ->]; [discriminate|]. cbn [bind]. unfold xgb_convert.
    destruct (mem str_eqb (xs_objective x) SUPPORTED_OBJ) eqn:E; [|reflexivity]. apply (mem_in str_eqb str_eqb_ok) in E. contradiction.
  - destruct (class_ok (SkTfidf v None t : sk A L V)) as [mc ->]; [discriminate|]. cbn [bind]. unfold tfidf_convert. rewrite Hv. reflexivity.
Qed.
Print Assumptions C64_errors.
Example C64_case : forall (A : arith),
  exists x, convert_estimator (composite (A:=A) [(lit "d", SkEncoder true (Some (lit "0.22.1")) DFloat [[0; 1]] (Some true) true None)]) None = Err x.
Proof.
  intro A. eapply C64_refused; [eapply skpart_pipeline; [right; left; reflexivity|]; apply skpart_self|]. reflexivity.
Qed.
