(** Lemmas about conversion. *)
From Coq Require Import String.
From Verif Require Import Model.Py Model.Arith Model.Utils Model.Base Model.Hash Model.DictVec
  Model.Text Model.Tree Model.Ensemble Model.Xgb Model.Linear Model.NaiveBayes
  Model.Dummy Model.Preprocessing Model.Encoders Model.Impute Model.Pipeline Model.Est Model.Convert Model.Objects.
From Verif Require Import Spec.Xgb Spec.Convert Proofs.Lib Proofs.Xgb.

(** Versions *)
Definition starts_not (k : nat) (v : pystr) : Prop :=
  match v with [] => True | c :: _ => char_class c <> k end.

Lemma runs_head : forall c v, exists w rest, runs (c :: v) = (char_class c, c :: w) :: rest.
Proof.
  intros c v. cbn [runs]. destruct (runs v) as [|[k w] ws]; [eauto|].
  destruct (k =? char_class c)%nat eqn:E; [|eauto]. apply Nat.eqb_eq in E. subst k. eauto.
Qed.
Lemma runs_app : forall k w v, w <> [] -> Forall (fun c => char_class c = k) w -> starts_not k v ->
  runs (w ++ v) = (k, w) :: runs v.
Proof.
  intros k w v N F HS. induction w as [|c w IH]; [congruence|]. inversion F as [|? ? Hc F']; subst.
  destruct w as [|c' w].
  - cbn [app]. cbn [runs]. destruct v as [|d v]; [reflexivity|]. destruct (runs_head d v) as (u & rest & E). rewrite E.
    cbn in HS. destruct (char_class d =? char_class c)%nat eqn:Ed; [apply Nat.eqb_eq in Ed; congruence|reflexivity].
  - assert (R : runs ((c' :: w) ++ v) = (char_class c, c' :: w) :: runs v) by (apply IH; [discriminate|auto]).
    change ((c :: c' :: w) ++ v) with (c :: ((c' :: w) ++ v)). cbn [runs]. rewrite R, Nat.eqb_refl. reflexivity.
Qed.

Lemma digits_class : forall w n, numeral w n -> Forall (fun c => char_class c = 0) w.
Proof.
  intros w n H. induction H as [d Hd|w n d H IH Hd].
  - constructor; [|constructor]. unfold char_class, is_digit. replace (_ && _) with true by lia. reflexivity.
  - apply Forall_app. split; auto. constructor; [|constructor]. unfold char_class, is_digit. replace (_ && _) with true by lia. reflexivity.
Qed.
Lemma numeral_head : forall w n, numeral w n -> exists c t, w = c :: t /\ char_class c = 0.
Proof.
  intros w n H. pose proof (digits_class _ _ H) as F. pose proof (numeral_ne _ _ H).
  destruct w as [|c t]; [congruence|]. inversion F; subst. eauto.
Qed.
Lemma release_head : forall v ns, release v ns -> exists c t, v = c :: t /\ char_class c = 0.
Proof.
  intros v ns H. destruct H as [w n H|w n v ns H _]; destruct (numeral_head _ _ H) as (c & t & -> & E); cbn; eauto.
Qed.

Lemma vparse_num : forall w n v, numeral w n -> starts_not 0 v -> vparse (w ++ v) = VInt (Z.of_nat n) :: vparse v.
Proof.
  intros w n v H HS. unfold vparse. rewrite (runs_app 0 w v (numeral_ne _ _ H) (digits_class _ _ H) HS).
  cbn [map concat fst snd]. rewrite (int_numeral _ _ H). reflexivity.
Qed.
Lemma vparse_dot : forall v, starts_not 2 v -> vparse (46%Z :: v) = vparse v.
Proof.
  intros v HS. unfold vparse. change (46%Z :: v) with ([46%Z] ++ v). rewrite (runs_app 2 [46%Z] v); [reflexivity|discriminate| |auto].
  constructor; [reflexivity|constructor].
Qed.
Lemma vparse_release : forall v ns tail, release v ns -> starts_not 0 tail ->
  vparse (v ++ tail) = map (fun n => VInt (Z.of_nat n)) ns ++ vparse tail.
Proof.
  intros v ns tail H HS. induction H as [w n H|w n v ns H R IH].
  - apply (vparse_num w n tail H HS).
  - rewrite <- app_assoc. rewrite (vparse_num w n _ H) by (cbn; discriminate). cbn [app map]. f_equal. rewrite <- IH.
    apply vparse_dot. destruct (release_head _ _ R) as (c & t & -> & E). cbn. rewrite E. discriminate.
Qed.

Lemma vlt_release : forall a b, exists r, vlt (map (fun n => VInt (Z.of_nat n)) a) (map (fun n => VInt (Z.of_nat n)) b) = Ok r /\
  (r = true <-> earlier a b).
Proof.
  induction a as [|x a IH]; intros [|y b]; cbn [map vlt].
  - eexists. split; [reflexivity|]. split; [discriminate|]. intro H. inversion H.
  - eexists. split; [reflexivity|]. split; auto. intros _. constructor.
  - eexists. split; [reflexivity|]. split; [discriminate|]. intro H. inversion H.
  - cbn [vtok_eqb]. destruct (Z.of_nat x =? Z.of_nat y)%Z eqn:E.
    + assert (x = y) by lia. subst y. destruct (IH b) as (r & -> & Hr). exists r. split; auto. rewrite Hr. split; intro H.
      * apply earlier_later. auto.
      * inversion H; subst; auto. lia.
    + eexists. split; [reflexivity|]. split; intro H.
      * apply earlier_here. lia.
      * inversion H; subst; lia.
Qed.
Lemma version_lt_release : forall v a m b, release v a -> release m b ->
  exists r, version_lt v m = Ok r /\ (r = true <-> earlier a b).
Proof.
  intros v a m b Ha Hb. destruct (vlt_release a b) as (r & E & Hr). exists r. split; auto. unfold version_lt.
  pose proof (vparse_release v a [] Ha I) as Pa. pose proof (vparse_release m b [] Hb I) as Pb.
  rewrite !app_nil_r in *. cbn [app vparse runs map concat] in *. rewrite Pa, Pb.
  destruct (release_head _ _ Ha) as (c & t & -> & _). destruct (release_head _ _ Hb) as (c' & t' & -> & _). auto.
Qed.

(** A list of ints, then a string, against ints only. *)
Lemma vlt_pre : forall a b s rest, 
  (exists r, vlt (map (fun n => VInt (Z.of_nat n)) a ++ VStr s :: rest) (map (fun n => VInt (Z.of_nat n)) b) = r /\
  ((exists c cs, b = a ++ c :: cs) -> r = Err TypeError) /\
  (~ (exists c cs, b = a ++ c :: cs) -> exists q, r = Ok q /\ (q = true <-> earlier a b))).
Proof.
  induction a as [|x a IH]; intros [|y b] s rest; cbn [map app vlt].
  - eexists. split; [reflexivity|]. split; [intros (c & cs & H); discriminate|]. intros _. eexists. split; [reflexivity|].
    split; [discriminate|]. intro H; inversion H.
  - cbn. eexists. split; [reflexivity|]. split; auto. intro H. exfalso. apply H. eauto.
  - eexists. split; [reflexivity|]. split; [intros (c & cs & H); discriminate|]. intros _. eexists. split; [reflexivity|].
    split; [discriminate|]. intro H; inversion H.
  - cbn [vtok_eqb]. destruct (Z.of_nat x =? Z.of_nat y)%Z eqn:E.
    + assert (x = y) by lia. subst y. destruct (IH b s rest) as (r & -> & H1 & H2). exists r. split; auto. split.
      * intros (c & cs & H). injection H as ->. apply H1. eauto.
      * intro H. destruct H2 as (q & -> & Hq).
        { intros (c & cs & ->). apply H. exists c, cs. reflexivity. }
        exists q. split; auto. rewrite Hq. split; intro K; [apply earlier_later; auto|]. inversion K; subst; auto. lia.
    + eexists. split; [reflexivity|]. split.
      * intros (c & cs & H). injection H as -> _. lia.
      * intros _. eexists. split; [reflexivity|]. split; intro H; [apply earlier_here; lia|]. inversion H; subst; lia.
Qed.
Lemma letter_runs : forall c t, char_class c = 1 -> exists w rest, vparse (c :: t) = VStr (c :: w) :: rest.
Proof.
  intros c t H. unfold vparse. destruct (runs_head c t) as (w & rest & ->). cbn [map concat fst snd]. rewrite H.
  destruct (int_of_str (c :: w)); eexists; eexists; reflexivity.
Qed.

(** Dispatch *)
Lemma supported_keys : dkeys MAPPING = supported.
Proof. reflexivity. Qed.

Section Conv.
  Context {A : arith} {L V : Type}.
  Implicit Types s : sk A L V.

  Section Ind.
    Variable P : sk A L V -> Prop.
    Hypothesis Hbag : forall k v ms fs cl, Forall P ms -> P (SkBagging k v ms fs cl).
    Hypothesis Hgb : forall v ts init ls lr nf cl,
      match init with InitEst s => P s | _ => True end -> P (SkGb v ts init ls lr nf cl).
    Hypothesis Hpipe : forall v steps, Forall (fun ns => P (snd ns)) steps -> P (SkPipeline v steps).
    Hypothesis Hunion : forall v ms w, Forall (fun ns => P (snd ns)) ms -> P (SkUnion v ms w).
    Hypothesis Hleaf : forall s,
      match s with SkBagging _ _ _ _ _ | SkGb _ _ _ _ _ _ _ | SkPipeline _ _ | SkUnion _ _ _ => False | _ => True end -> P s.

    Fixpoint sk_rec' s : P s.
    Proof.
      destruct s; try (apply Hleaf; exact I).
      - apply Hbag. induction members as [|m ms IH]; constructor; [apply sk_rec'|apply IH].
      - apply Hgb. destruct init as [|i|]; [exact I|apply sk_rec'|exact I].
      - apply Hpipe. induction steps as [|m ms IH]; constructor; [apply sk_rec'|apply IH].
      - apply Hunion. induction members as [|m ms IH]; constructor; [apply sk_rec'|apply IH].
    Defined.
  End Ind.

  Lemma class_ok : forall s, (forall c, s <> SkOther c) -> exists mc, dispatch (class_name s) = Ok mc.
  Proof.
    intros s H. destruct s; try (destruct k); try (destruct m); try (destruct onehot);
      try (eexists; vm_compute; reflexivity). destruct (H cls eq_refl).
  Qed.
  Lemma class_supported : forall s, (forall c, s <> SkOther c) -> In (class_name s) supported.
  Proof.
    intros s H. assert (E : mem str_eqb (class_name s) supported = true).
    { destruct s; try (destruct k); try (destruct m); try (destruct onehot); try (vm_compute; reflexivity). destruct (H cls eq_refl). }
    apply (mem_in str_eqb str_eqb_ok) in E. auto.
  Qed.

  Lemma seqM_ok : forall {T} (l : list (res T)) r, seqM l = Ok r <-> Forall2 (fun x y => x = Ok y) l r.
  Proof. intros T l r. unfold seqM. apply mapM_Forall2. Qed.
  Lemma seqM_map_ok : forall {S T} (f : S -> res T) l, (exists r, seqM (map f l) = Ok r) <-> (forall x, In x l -> exists y, f x = Ok y).
  Proof.
    intros S T f l. split.
    - intros [r H] x Hx. apply seqM_ok in H. apply In_nth_error in Hx. destruct Hx as [n Hn]. apply Forall2_nth_error in H. destruct H as [HL H].
      destruct (nth_error r n) as [y|] eqn:E.
      + specialize (H n). exists y. eapply H; eauto. try (rewrite nth_error_map, Hn; reflexivity); auto.
      + apply nth_error_None in E. apply nth_error_lt in Hn. try rewrite map_length in HL. lia.
    - induction l as [|x l IH]; intro H; [exists []; reflexivity|].
      destruct (H x (or_introl eq_refl)) as [y E]. destruct IH as [r Er]; [intros; apply H; right; auto|].
      exists (y :: r). unfold seqM in *. cbn [map mapM]. rewrite E. cbn [bind]. rewrite Er. reflexivity.
  Qed.

  Definition fine s : Prop := versions_accepted s /\ implemented s.

  Lemma parts_bagging : forall (P : sk A L V -> Prop) k v ms fs cl,
    (forall p, skpart (SkBagging k v ms fs cl) p -> P p) <->
    P (SkBagging k v ms fs cl) /\ forall s, In s ms -> forall p, skpart s p -> P p.
  Proof.
    intros P k v ms fs cl. split.
    - intro H. split; [apply H; constructor|]. intros s Hs p Hp. apply H. eapply skpart_bagging; eauto.
    - intros [H0 H] p Hp. inversion Hp; subst; eauto.
  Qed.
  Lemma parts_pipeline : forall (P : sk A L V -> Prop) v steps,
    (forall p, skpart (SkPipeline v steps) p -> P p) <->
    P (SkPipeline v steps) /\ forall ns, In ns steps -> forall p, skpart (snd ns) p -> P p.
  Proof.
    intros P v steps. split.
    - intro H. split; [apply H; constructor|]. intros [nm s] Hs p Hp. apply H. eapply skpart_pipeline; eauto.
    - intros [H0 H] p Hp. inversion Hp; subst; auto. eapply (H (nm, s)); eauto.
  Qed.
  Lemma parts_union : forall (P : sk A L V -> Prop) v ms w,
    (forall p, skpart (SkUnion v ms w) p -> P p) <->
    P (SkUnion v ms w) /\ forall ns, In ns ms -> forall p, skpart (snd ns) p -> P p.
  Proof.
    intros P v ms w. split.
    - intro H. split; [apply H; constructor|]. intros [nm s] Hs p Hp. apply H. eapply skpart_union; eauto.
    - intros [H0 H] p Hp. inversion Hp; subst; auto. eapply (H (nm, s)); eauto.
  Qed.
  Lemma parts_gb : forall (P : sk A L V -> Prop) v ts init ls lr nf cl,
    (forall p, skpart (SkGb v ts init ls lr nf cl) p -> P p) <->
    P (SkGb v ts init ls lr nf cl) /\ match init with InitEst s => forall p, skpart s p -> P p | _ => True end.
  Proof.
    intros P v ts init ls lr nf cl. split.
    - intro H. split; [apply H; constructor|]. destruct init; auto. intros p Hp. apply H. apply skpart_gb. auto.
    - intros [H0 H] p Hp. inversion Hp; subst; auto.
  Qed.
  Lemma parts_leaf : forall (P : sk A L V -> Prop) s,
    match s with SkBagging _ _ _ _ _ | SkGb _ _ _ _ _ _ _ | SkPipeline _ _ | SkUnion _ _ _ => False | _ => True end ->
    ((forall p, skpart s p -> P p) <-> P s).
  Proof.
    intros P s H. split; [intro K; apply K; constructor|]. intros K p Hp. inversion Hp; subst; auto; contradiction.
  Qed.

  (** Unfolding [convert] for classes that exist. *)
  Lemma bind_some : forall {S T} (r : res S) (k : S -> res T), (exists x, bind r k = Ok x) <-> exists a, r = Ok a /\ exists x, k a = Ok x.
  Proof.
    intros S T r k. split.
    - intros [x H]. apply bind_ok in H. destruct H as (a & E & H). eauto.
    - intros (a & E & x & H). exists x. rewrite E. auto.
  Qed.
  Lemma ok_some : forall {T} (x : T), (exists y, Ok x = Ok y) <-> True.
  Proof. intros T x. split; auto. intros _. eauto. Qed.

  Lemma named_ok : forall l : list (pystr * sk A L V),
    (exists r, seqM (map (fun ns => e <- convert (snd ns) ;; Ok (fst ns, e)) l) = Ok r) <->
    (forall ns, In ns l -> exists e, convert (snd ns) = Ok e).
  Proof.
    intro l. rewrite seqM_map_ok. split; intros H ns Hn; specialize (H ns Hn).
    - apply bind_some in H. destruct H as (e & E & _). eauto.
    - destruct H as [e E]. rewrite E. cbn. eauto.
  Qed.

  Lemma gb_loss_ok : forall ls n, (exists l, gb_loss_of ls n = Ok l) <->
    ((ls = lit "deviance" /\ 2 <= n) \/ (ls = lit "exponential" /\ n = 2)).
  Proof.
    intros ls n. unfold gb_loss_of. destruct (str_eqb ls (lit "deviance")) eqn:E1.
    - apply str_eqb_ok in E1. subst ls. destruct (2 <? n)%nat eqn:E2.
      + split; intro H; [left; split; auto; lia|eauto].
      + split; intro H.
        * apply bind_some in H. destruct H as (u & G & _). apply guard_ok in G. left. split; auto. lia.
        * destruct H as [[_ H]|[H _]]; [|discriminate]. assert (n = 2) by lia. subst n. cbn. eauto.
    - destruct (str_eqb ls (lit "exponential")) eqn:E2.
      + apply str_eqb_ok in E2. subst ls. split; intro H.
        * apply bind_some in H. destruct H as (u & G & _). apply guard_ok in G. right. split; auto. lia.
        * destruct H as [[H _]|[_ H]]; [discriminate|]. subst n. cbn. eauto.
      + split; [intros [l H]; discriminate|]. intros [[-> _]|[-> _]]; [rewrite str_eqb_refl in E1|rewrite str_eqb_refl in E2]; discriminate.
  Qed.

  Lemma trees_ok : forall (trees : list (list (option pystr * tree A L))),
    (exists ts, mapM (mapM (fun vt => dispatch (lit "DecisionTreeRegressor") ;; check_version (fst vt) None ;; Ok (snd vt))) trees = Ok ts) <->
    (forall row vt, In row trees -> In vt row -> accepted (fst vt) None).
  Proof.
    assert (D : exists mc, dispatch (lit "DecisionTreeRegressor") = Ok mc) by (eexists; vm_compute; reflexivity).
    destruct D as [mc D].
    assert (R : forall row : list (option pystr * tree A L), (exists ts, mapM (fun vt => dispatch (lit "DecisionTreeRegressor") ;; check_version (fst vt) None ;; Ok (snd vt)) row = Ok ts) <->
      (forall vt, In vt row -> accepted (fst vt) None)).
    { intro row. pose proof (seqM_map_ok (fun vt : option pystr * tree A L => dispatch (lit "DecisionTreeRegressor") ;; check_version (fst vt) None ;; Ok (snd vt)) row) as H.
      unfold seqM in H. rewrite mapM_map in H. rewrite H. clear H. rewrite D. cbn [bind].
      split; intros H vt Hv; specialize (H vt Hv).
      - apply bind_some in H. destruct H as (b & E & _). exists b. auto.
      - destruct H as [b E]. rewrite E. cbn. eauto. }
    intro trees. pose proof (seqM_map_ok (mapM (fun vt : option pystr * tree A L => dispatch (lit "DecisionTreeRegressor") ;; check_version (fst vt) None ;; Ok (snd vt))) trees) as H.
    unfold seqM in H. rewrite mapM_map in H. rewrite H. clear H.
    split; intros H; [intros row vt Hr; apply R; auto|]. intros row Hr. apply R. eauto.
  Qed.

  Lemma xgb_ok : forall x : xgb_src A L, (exists g, xgb_convert x = Ok g) <-> implemented (V:=V) (SkXgb x).
  Proof.
    intro x. unfold xgb_convert, implemented. rewrite bind_some. split.
    - intros (u & G & H). apply guard_ok in G. apply bind_some in H. destruct H as (u' & G' & H). apply guard_ok in G'.
      apply bind_some in H. destruct H as (df & Ed & H). apply bind_some in H. destruct H as (es & Ee & _).
      apply str_eqb_ok in G'. apply (mem_in str_eqb str_eqb_ok) in G. split; [destruct G as [G|[G|[]]]; auto|]. split; auto.
      destruct (xs_df x) as [df'|]; [|discriminate]. injection Ed as ->. exists df. split; [reflexivity|]. apply (build_readable (L:=L)). eauto.
    - intros (Ho & Hb & df & Ed & Ee). apply (build_readable (L:=L)) in Ee. destruct Ee as [es Ee]. exists tt. split.
      + apply guard_ok. apply (mem_in str_eqb str_eqb_ok). destruct Ho as [->| ->]; [left|right; left]; reflexivity.
      + apply bind_some. exists tt. split; [apply guard_ok; rewrite Hb; apply str_eqb_refl|]. rewrite Ed. cbn [bind].
        apply bind_some. eauto.
  Qed.
  Lemma dummy_ok : forall us (s : pystr) (prior : list A), (exists d, dummy_convert us s prior = Ok d) <->
    us = Some (lit "prior") \/ (us = None /\ s = lit "prior").
  Proof.
    intros us s prior. unfold dummy_convert. rewrite bind_some. split.
    - intros (u & G & _). apply guard_ok in G. apply str_eqb_ok in G. destruct us; [left; congruence|right; auto].
    - intros [->|[-> ->]]; exists tt; split; cbn; eauto.
  Qed.
  Lemma tfidf_ok : forall v idf (t : tfidf A), (exists t', tfidf_convert v idf t = Ok t') <-> accepted v None /\ idf <> None.
  Proof.
    intros v idf t. unfold tfidf_convert. rewrite bind_some. split.
    - intros (b & E & H). split; [exists b; auto|]. destruct idf; [discriminate|]. destruct H; discriminate.
    - intros ([b E] & H). exists b. split; auto. destruct idf; [eauto|congruence].
  Qed.

  Lemma accepted_bind : forall {T} v m (k : bool -> res T), (exists x, bind (check_version v m) k = Ok x) <->
    exists b, check_version v m = Ok b /\ exists x, k b = Ok x.
  Proof. intros. apply bind_some. Qed.
  Lemma accepted_seq : forall {T} v m (k : res T), (exists x, bind (check_version v m) (fun _ => k) = Ok x) <->
    accepted v m /\ exists x, k = Ok x.
  Proof.
    intros T v m k. rewrite bind_some. unfold accepted. split.
    - intros (b & E & H). eauto.
    - intros [[b E] H]. eauto.
  Qed.
  Lemma bind_Ok_some : forall {S T} (r : res S) (k : S -> T), (exists x, bind r (fun a => Ok (k a)) = Ok x) <-> exists a, r = Ok a.
  Proof. intros S T r k. rewrite bind_some. split; [intros (a & E & _)|intros (a & E)]; eauto. Qed.
  Lemma guard_seq : forall {T} b e (k : res T), (exists x, bind (guard b e) (fun _ => k) = Ok x) <-> b = true /\ exists x, k = Ok x.
  Proof.
    intros T b e k. rewrite bind_some. split.
    - intros (u & G & H). apply guard_ok in G. auto.
    - intros [-> H]. exists tt. auto.
  Qed.
  Lemma dispatch_seq : forall {T} s (k : res T), (forall c, s <> SkOther c) ->
    ((exists x, bind (dispatch (class_name s)) (fun _ => k) = Ok x) <-> exists x, k = Ok x).
  Proof. intros T s k H. destruct (class_ok s H) as [mc ->]. reflexivity. Qed.

  Lemma convert_iff : forall s, (exists e, convert s = Ok e) <-> forall p, skpart s p -> fine p.
  Proof.
    apply sk_rec'.
    - intros k v ms fs cl IH. rewrite parts_bagging. cbn [convert]. rewrite dispatch_seq by discriminate.
      rewrite accepted_seq, bind_Ok_some, seqM_map_ok. rewrite Forall_forall in IH. unfold fine at 1. cbn [versions_accepted implemented].
      split.
      + intros [Hv H]. split; [auto|]. intros s Hs. exact (proj1 (IH _ Hs) (H _ Hs)).
      + intros [[Hv _] H]. split; auto. intros s Hs. exact (proj2 (IH _ Hs) (H _ Hs)).
    - intros v ts init ls lr nf cl IH. rewrite parts_gb. cbn [convert]. rewrite dispatch_seq by discriminate.
      rewrite accepted_seq. unfold fine at 1. cbn [versions_accepted implemented]. rewrite bind_some.
      assert (G : (exists i, (match init with NoInit => Ok None | InitEst s => e <- convert s ;; Ok (Some e)
                  | InitStr _ => dispatch (lit "str") ;; Err AttributeError end) = Ok i) <->
                  (forall w, init <> InitStr w) /\ match init with InitEst s => forall p, skpart s p -> fine p | _ => True end).
      { destruct init as [|s|w].
        - split; eauto. intros _. split; auto. discriminate.
        - rewrite bind_Ok_some, IH. split; [split; auto; discriminate|intros []; auto].
        - split; [intros [i H]; discriminate|]. intros [H _]. destruct (H w eq_refl). }
      split.
      + intros (Hv & ts' & Et & H). apply bind_some in H. destruct H as (i & Ei & H). rewrite bind_Ok_some in H.
        apply gb_loss_ok in H. destruct (proj1 G (ex_intro _ i Ei)) as [G1 G2]. split; auto. split; [split; [auto|]|split; auto].
        apply trees_ok. eauto.
      + intros [[[Hv Ht] [Hi Hl]] Hp]. split; auto. apply trees_ok in Ht. destruct Ht as [ts' Et]. exists ts'. split; auto.
        destruct (proj2 G (conj Hi Hp)) as [i Ei]. rewrite bind_some. exists i. split; auto. rewrite bind_Ok_some. apply gb_loss_ok. auto.
    - intros v steps IH. rewrite parts_pipeline. cbn [convert]. rewrite dispatch_seq by discriminate.
      rewrite accepted_seq, bind_Ok_some, named_ok. rewrite Forall_forall in IH. unfold fine at 1. cbn [versions_accepted implemented].
      split.
      + intros [Hv H]. split; [auto|]. intros s Hs. exact (proj1 (IH _ Hs) (H _ Hs)).
      + intros [[Hv _] H]. split; auto. intros s Hs. exact (proj2 (IH _ Hs) (H _ Hs)).
    - intros v ms w IH. rewrite parts_union. cbn [convert]. rewrite dispatch_seq by discriminate.
      rewrite accepted_seq, bind_Ok_some, named_ok. rewrite Forall_forall in IH. unfold fine at 1. cbn [versions_accepted implemented].
      split.
      + intros [Hv H]. split; [auto|]. intros s Hs. exact (proj1 (IH _ Hs) (H _ Hs)).
      + intros [[Hv _] H]. split; auto. intros s Hs. exact (proj2 (IH _ Hs) (H _ Hs)).
    - intros s Hs. rewrite (parts_leaf fine s Hs). unfold fine.
      destruct s; try contradiction; cbn [convert versions_accepted implemented]; try (rewrite dispatch_seq by discriminate);
        try (rewrite accepted_seq); try (rewrite ok_some; tauto).
      + rewrite bind_Ok_some, xgb_ok. cbn [implemented]. tauto.
      + rewrite bind_Ok_some, dummy_ok. tauto.
      + rewrite bind_Ok_some. unfold encoder_convert. rewrite guard_seq, ok_some. destruct drop; cbn; intuition discriminate.
      + rewrite bind_Ok_some. destruct ind as [[vi t]|].
        * rewrite accepted_seq, ok_some. split.
          -- intros (Hv & Hi & _). split; auto. split; auto. intros ? ? E. injection E as <- <-. auto.
          -- intros ((Hv & Hi) & _). split; auto. split; eauto.
        * rewrite ok_some. split; [|tauto]. intros [Hv _]. split; auto. split; auto. discriminate.
      + rewrite guard_seq, ok_some. destruct callables; cbn; intuition discriminate.
      + rewrite bind_Ok_some, tfidf_ok. tauto.
      + assert (D : exists mc, dispatch (lit "TfidfTransformer") = Ok mc) by (eexists; vm_compute; reflexivity).
        destruct D as [mc ->]. cbn [bind]. rewrite bind_some. split.
        * intros (Hv & t' & E & H). rewrite guard_seq, ok_some in H. pose proof (proj1 (tfidf_ok tv idf t) (ex_intro _ t' E)) as [K1 K2].
          destruct callables; cbn in H; intuition discriminate.
        * intros ((Hv & Ht) & -> & Hi). split; auto. destruct (proj2 (tfidf_ok tv idf t) (conj Ht Hi)) as [t' E]. exists t'. split; auto.
          cbn. eauto.
      + rewrite guard_seq, ok_some. destruct callables; cbn; intuition discriminate.
      + split; [|tauto]. intros [e H]. apply bind_ok in H. destruct H as (? & _ & H). discriminate.
  Qed.

  (** The shape of the result. *)
  Lemma named_shape : forall (l : list (pystr * sk A L V)) r,
    seqM (map (fun ns => e <- convert (snd ns) ;; Ok (fst ns, e)) l) = Ok r <->
    Forall2 (fun ns ne => fst ne = fst ns /\ convert (snd ns) = Ok (snd ne)) l r.
  Proof.
    intros l r. rewrite seqM_ok, Forall2_map_l. apply Forall2_iff. intros [nm s] [nm' e]. cbn [fst snd]. split.
    - intro H. inv_bind H. injection H as -> ->. auto.
    - intros [-> ->]. reflexivity.
  Qed.
End Conv.

(** check_types *)
Section Types.
  Variable h : heap.

  Lemma foldM_unit : forall {T} (f : T -> res unit) l, foldM (fun _ x => f x) l tt = Ok tt <-> forall x, In x l -> f x = Ok tt.
  Proof.
    intros T f l. induction l as [|x l IH]; cbn.
    - split; auto. intros _ x [].
    - split.
      + intro H. inv_bind H. destruct a. rewrite IH in H. intros y [->|Hy]; auto.
      + intro H. rewrite (H x (or_introl eq_refl)). cbn. apply IH. auto.
  Qed.

  Lemma check_types_iff : forall n a,
    check_types h n a = Ok tt <->
    (forall k b, reaches h k a b -> k < n /\ pure_kind h b).
  Proof.
    induction n as [|n IH]; intro a; cbn [check_types].
    - split; [discriminate|]. intro H. destruct (H 0 a (reaches_0 h a)). lia.
    - assert (Step : pure_kind h a -> (forall b, refers h a b -> check_types h n b = Ok tt) ->
                     forall k b, reaches h k a b -> k < S n /\ pure_kind h b).
      { intros Pa Hb k b Hr. inversion Hr; subst; [split; [lia|auto]|]. apply Hb in H. rewrite IH in H.
        destruct (H _ _ H0). split; [lia|auto]. }
      assert (Back : (forall k b, reaches h k a b -> k < S n /\ pure_kind h b) -> forall b, refers h a b -> check_types h n b = Ok tt).
      { intros H b Hb. apply IH. intros k c Hc. destruct (H (S k) c) as [H1 H2]; [econstructor; eauto|]. split; [lia|auto]. }
      assert (Self : (forall k b, reaches h k a b -> k < S n /\ pure_kind h b) -> pure_kind h a).
      { intro H. apply (H 0). constructor. }
      destruct (nth_error h a) as [[e elems at_|e es at_|e|at_| |]|] eqn:E.
      + rewrite foldM_unit. split; intro H.
        * apply Step; [eexists; split; [eauto|discriminate]|]. intros b Hb. apply H. inversion Hb; congruence.
        * intros b Hb. apply Back; auto. eapply refers_elem; eauto.
      + rewrite foldM_unit. split; intro H.
        * apply Step; [eexists; split; [eauto|discriminate]|].
          assert (K : forall k v, In (k, v) es -> check_types h n k = Ok tt /\ check_types h n v = Ok tt).
          { intros k v Hkv. specialize (H _ Hkv). cbn [fst snd] in H. inv_bind H. destruct a0. auto. }
          intros b Hb. inversion Hb; subst; try congruence; rewrite E in H0; injection H0 as -> -> ->; destruct (K _ _ H1); auto.
        * intros [k v] Hb. cbn [fst snd]. rewrite (Back H k) by (eapply refers_key; eauto). cbn [bind].
          apply Back; auto. eapply refers_value; eauto.
      + split; auto. intros _. apply Step; [eexists; split; [eauto|discriminate]|]. intros b Hb. inversion Hb; congruence.
      + rewrite foldM_unit. split; intro H.
        * apply Step; [eexists; split; [eauto|discriminate]|]. intros b Hb. inversion Hb; subst; try congruence.
          rewrite E in H0. injection H0 as ->. apply (H (nm, b)). auto.
        * intros [nm b] Hb. cbn [snd]. apply Back; auto. eapply refers_attr; eauto.
      + split; auto. intros _. apply Step; [eexists; split; [eauto|discriminate]|]. intros b Hb. inversion Hb; congruence.
      + split; [discriminate|]. intro H. destruct (Self H) as (o & E' & N). rewrite E in E'. congruence.
      + split; [discriminate|]. intro H. destruct (Self H) as (o & E' & N). rewrite E in E'. congruence.
  Qed.
End Types.
