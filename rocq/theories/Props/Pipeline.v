(** C48-C49: pipelines and feature unions (pure_sklearn/pipeline.py).  The
    theorems hold for steps that are any objects whatever. *)
From Coq Require Import String.
From Verif Require Import Model.Py Model.Arith Model.F64 Model.Utils Model.Base Model.DictVec Model.Text
  Model.Pipeline Model.Est Model.Preprocessing Model.Encoders Model.Dummy Model.Linear.
From Verif Require Import Spec.Matrix Spec.Pipeline Proofs.Lib Proofs.Arrays Proofs.Pipeline.

Section Any.
  Context {A : arith} {L V : Type}.

(** C48.  predict gives [p] exactly when feeding X through the transformers, in
    order, gives some Z and the final estimator's predict gives [p] on Z; it
    raises [e] exactly when a transformer does, or the final predict on Z. *)
Theorem C48_predict : forall (steps : list (pystr * obj A L V)) nm final f,
  o_predict final = Some f ->
  exists g, o_predict (pipeline (steps ++ [(nm, final)])) = Some g /\
    forall X,
      (forall p, fst (g X) = Ok p <-> exists Z, applied (map snd steps) X Z /\ fst (f Z) = Ok p) /\
      (forall e, fst (g X) = Err e <-> stops_with (map snd steps) X e \/
                   exists Z, applied (map snd steps) X Z /\ fst (f Z) = Err e).
Proof. intros steps nm final f E. exact (pipe_method_some (@o_predict A L V) steps nm final f E). Qed.

Theorem C48_predict_proba : forall (steps : list (pystr * obj A L V)) nm final f,
  o_proba final = Some f ->
  exists g, o_proba (pipeline (steps ++ [(nm, final)])) = Some g /\
    forall X,
      (forall p, fst (g X) = Ok p <-> exists Z, applied (map snd steps) X Z /\ fst (f Z) = Ok p) /\
      (forall e, fst (g X) = Err e <-> stops_with (map snd steps) X e \/
                   exists Z, applied (map snd steps) X Z /\ fst (f Z) = Err e).
Proof. intros steps nm final f E. exact (pipe_method_some (@o_proba A L V) steps nm final f E). Qed.

Theorem C48_predict_log_proba : forall (steps : list (pystr * obj A L V)) nm final f,
  o_log_proba final = Some f ->
  exists g, o_log_proba (pipeline (steps ++ [(nm, final)])) = Some g /\
    forall X,
      (forall p, fst (g X) = Ok p <-> exists Z, applied (map snd steps) X Z /\ fst (f Z) = Ok p) /\
      (forall e, fst (g X) = Err e <-> stops_with (map snd steps) X e \/
                   exists Z, applied (map snd steps) X Z /\ fst (f Z) = Err e).
Proof. intros steps nm final f E. exact (pipe_method_some (@o_log_proba A L V) steps nm final f E). Qed.

(** transform applies every step, the final one included. *)
Theorem C48_transform : forall (steps : list (pystr * obj A L V)) nm final f,
  o_transform final = Some f ->
  exists g, o_transform (pipeline (steps ++ [(nm, final)])) = Some g /\
    forall X,
      (forall Z, t_value (g X) = Ok Z <-> applied (map snd steps ++ [final]) X Z) /\
      (forall e, t_value (g X) = Err e <-> stops_with (map snd steps ++ [final]) X e).
Proof.
  intros steps nm final f E. unfold pipeline. cbn [o_transform]. rewrite last_step_app, E.
  eexists. split; [reflexivity|]. intro X. rewrite map_app. cbn [map snd].
  split; intro y; [apply (run_ok _ None) | apply (run_err _ None)].
Qed.

(** Each method exists exactly when the final estimator has it. *)
Theorem C48_methods : forall (steps : list (pystr * obj A L V)) nm final,
  let p := pipeline (steps ++ [(nm, final)]) in
  (o_transform p = None <-> o_transform final = None) /\
  (o_predict p = None <-> o_predict final = None) /\
  (o_proba p = None <-> o_proba final = None) /\
  (o_log_proba p = None <-> o_log_proba final = None) /\
  o_classes p = o_classes final.
Proof.
  intros steps nm final p. split; [|split; [|split; [|split]]]; try apply pipe_method_none.
  - unfold p, pipeline. cbn [o_transform]. rewrite last_step_app. destruct (o_transform final); split; congruence.
  - unfold p, pipeline. cbn [o_classes]. rewrite last_step_app. reflexivity.
Qed.

Lemma batch_check : forall (X : data A V) n, batch X n -> check_data X = Ok X /\ data_len X = Ok n.
Proof.
  intros X n [Hn H]. unfold check_data, data_len.
  destruct X as [[[|x l]|rows sz dt| |]|[s|[|d l]]|[d|[|d l]]|[[|x l]|rows sz dt| |]]; cbn in *; try tauto;
    try (subst; cbn in Hn; lia); subst; auto; rewrite ?map_length; auto.
Qed.

Lemma batch_not_exn : forall {T} (X : data A V) n (a b : T), batch X n ->
  match X with DNum ExnObj => a | _ => b end = b.
Proof. intros T X n a b [_ H]. destruct X as [[| | |]| | |]; auto. elim H. Qed.

(** C49.  When every member returns a list of lists, the result is these
    matrices side by side, in order, each scaled by its weight if it has one;
    X is left alone. *)
Theorem C49_dense : forall (members : list (pystr * obj A L V)) weights X n Ms,
  batch X n -> members <> [] ->
  Forall2 (fun m M => exists M0, gives (snd m) X (ll M0) /\ length M0 = n /\
                        scaled (weight_of weights (fst m)) M0 M) members Ms ->
  exists M, gives (feature_union members weights) X (ll M) /\ beside n Ms M.
Proof.
  intros members weights X n Ms HB Hne HF.
  destruct (batch_check X n HB) as [EC EL].
  assert (H1 : Forall2 (member_gives X) (weighted members weights) (map ll Ms)).
  { clear Hne. unfold weighted. induction HF as [|m M ms Ms (M0 & G & Ln & S) HF IH]; [constructor|].
    cbn [map]. constructor; auto. unfold member_gives. cbn [fst snd].
    unfold weight_of in S. destruct weights as [w|]; [destruct (dlookup str_eqb (fst m) w) as [w'|]|]; cbn in S.
    - exists M0, M. auto.
    - subst; auto.
    - subst; auto. }
  assert (HL : Forall (fun M => length M = n) Ms).
  { clear -HF. induction HF as [|m M ms Ms (M0 & G & Ln & S) HF IH]; constructor; auto.
    destruct (weight_of weights (fst m)) as [w|]; cbn in S; [|congruence].
    rewrite <- (Forall2_len _ _ _ S). auto. }
  destruct (transform_all_gives _ _ _ H1) as (ys & E & El & Em).
  destruct (dense_union_ok Ms n) as (M & EM & HM).
  { destruct members; [elim Hne; auto|]. inversion HF; discriminate. }
  { exact HL. }
  exists M. split; [|exact HM].
  assert (Hsp : existsb issparse (map ll Ms) = false).
  { clear. induction Ms; cbn; auto. }
  eexists. split; [reflexivity|]. unfold union_transform. rewrite EC, E.
  destruct ys as [|y ys].
  { unfold weighted in El. rewrite map_length in El. destruct members; [elim Hne; auto|discriminate]. }
  unfold t_value. cbn [t_out t_after bind]. rewrite Em, Hsp, EL. cbn [bind]. rewrite EM. cbn [bind].
  split; [reflexivity|]. apply (batch_not_exn _ _ _ _ HB).
Qed.

(** When some member returns a sparse_list (the others a sparse_list or lists
    of at least one column), the result is a sparse_list of the total width
    that stores these matrices side by side, in order.  Members with a weight
    must return lists of lists. *)
Theorem C49_sparse_partial : forall (members : list (pystr * obj A L V)) weights X n Ms,
  batch X n ->
  Exists (fun m => weight_of weights (fst m) = None /\ exists rows sz dt, gives (snd m) X (Sp rows sz dt)) members ->
  Forall2 (fun m Mc =>
             match weight_of weights (fst m) with
             | None => exists Y, gives (snd m) X Y /\ represents Y (fst Mc) n (snd Mc) /\
                         (issparse Y = true \/ 1 <= snd Mc)
             | Some w => exists M0, gives (snd m) X (ll M0) /\ scaled (Some w) M0 (fst Mc) /\
                         rect (fst Mc) n (snd Mc) /\ 1 <= snd Mc
             end) members Ms ->
  exists Y M, gives (feature_union members weights) X Y /\ issparse Y = true /\
    beside n (map fst Ms) M /\ represents Y M n (list_sum (map snd Ms)).
Proof.
  intros members weights X n Ms HB HE HF.
  destruct (batch_check X n HB) as [EC EL].
  assert (H1 : exists Ys, Forall2 (member_gives X) (weighted members weights) Ys /\
      reps (fun Y M c => represents Y M n c /\ wide Y c) Ys (map fst Ms) (map snd Ms) /\
      existsb issparse Ys = true).
  { unfold weighted. clear EC EL.
    assert (G : exists Ys, Forall2 (member_gives X) (weighted members weights) Ys /\
      reps (fun Y M c => represents Y M n c /\ wide Y c) Ys (map fst Ms) (map snd Ms)).
    { clear HE. unfold weighted. induction HF as [|m [M c] ms Ms HM HF IH].
      - exists []. split; constructor.
      - destruct IH as (Ys & I1 & I2). cbn [fst snd] in HM.
        assert (GY : exists Y, member_gives X (snd m, weight_of weights (fst m)) Y /\
                       represents Y M n c /\ wide Y c).
        { unfold member_gives. cbn [fst snd]. destruct (weight_of weights (fst m)) as [w|].
          - destruct HM as (M0 & G & S & R & Hc). exists (ll M). split; [eauto|].
            split; [split; auto|]. right; auto.
          - destruct HM as (Y & G & R & W). exists Y. auto. }
        destruct GY as (Y & G1 & G2). exists (Y :: Ys). split; constructor; auto. }
    destruct G as (Ys & G1 & G2). exists Ys. split; auto. split; auto.
    clear HF G2 HB. unfold weighted in G1. revert Ys G1. induction HE as [m ms (EW & rows & sz & dt & HG)|m ms HE IH]; intros Ys G1;
      inversion G1 as [|? Y ? Ys' GY G1']; subst.
    - unfold member_gives in GY. cbn [fst snd] in GY.
      change (match weights with Some w => dlookup str_eqb (fst m) w | None => None end) with (weight_of weights (fst m)) in GY.
      rewrite EW in GY. destruct HG as (f & E1 & E2 & _), GY as (f' & E1' & E2' & _).
      rewrite E1 in E1'. injection E1' as <-. rewrite E2 in E2'. injection E2' as <-. reflexivity.
    - cbn [existsb]. rewrite (IH _ G1'). apply Bool.orb_true_r. }
  destruct H1 as (Ys & G1 & G2 & G3).
  destruct (transform_all_gives _ _ _ G1) as (ys & E & El & Em).
  destruct (sparse_union_ok Ys (map fst Ms) (map snd Ms) n G2) as (rows & M & EU & HM & HS).
  { intro Hb. subst Ys. rewrite Hb in G3. discriminate. }
  { apply HB. }
  exists (Sp rows (Some (Z.of_nat (list_sum (map snd Ms)))) DFloat), M.
  split; [|split; [reflexivity|split; [exact HM|]]].
  - eexists. split; [reflexivity|]. unfold union_transform. rewrite EC, E.
    destruct ys as [|y ys]; [subst Ys; discriminate|].
    unfold t_value. cbn [t_out t_after bind]. rewrite Em, G3, EL, EU. cbn [bind].
    split; [reflexivity|]. apply (batch_not_exn _ _ _ _ HB).
  - split; [|right; exists rows, DFloat; auto]. destruct HM as [HL HM]. split; auto.
    apply Forall_forall. intros row Hin. apply In_nth_error in Hin. destruct Hin as (i & Hi).
    destruct (HM i row Hi) as (rs & Hrs & ->). clear -G2 Hrs. revert rs Hrs.
    induction G2 as [|Y M0 c Ys' Ms' cs [[HR _] _] G2 IH]; intros rs Hrs; inversion Hrs as [|? r ? rs' Er Hrs']; subst; auto.
    cbn [concat list_sum]. rewrite app_length, (IH _ Hrs'). unfold list_sum. cbn.
    assert (length r = c) as ->; [|reflexivity]. destruct HR as [_ HR]. rewrite Forall_forall in HR.
    apply HR. eapply nth_error_In; eauto.
Qed.

(** The missing part: a weight on a member that returns a sparse_list raises
    ValueError instead of scaling the block. *)
Theorem C49_sparse_weight_refuted : forall (o : obj A L V) nm w X n rows sz dt,
  batch X n -> gives o X (Sp rows sz dt) ->
  exists f, o_transform (feature_union [(nm, o)] (Some [(nm, w)])) = Some f /\
    t_value (f X) = Err ValueError.
Proof.
  intros o nm w X n rows sz dt HB (f & E1 & E2 & E3). destruct (batch_check X n HB) as [EC EL].
  eexists. split; [reflexivity|]. unfold union_transform. rewrite EC. unfold weighted.
  cbn [map fst snd dlookup transform_all]. rewrite str_eqb_refl. unfold transform_one, call_transform.
  rewrite E1, E2. reflexivity.
Qed.

(** In general the members are called in turn on one object, which a member may
    modify (TfidfTransformer does) and may return.  The union concatenates what
    they returned as it reads after the last call: a member sees the changes
    its predecessors made to X, and a member that returned X itself contributes
    the final contents of X. *)
Theorem C49_in_turn : forall (members : list (pystr * obj A L V)) X n ys X' Ys,
  batch X n -> in_turn (map snd members) X ys X' -> batch X' n -> Forall2 (reads X') ys Ys ->
  exists g, o_transform (feature_union members None) = Some g /\ t_after (g X) = X' /\
    (forall Ms, Ys = map ll Ms -> Ms <> [] -> Forall (fun M => length M = n) Ms ->
       exists M, t_value (g X) = Ok (DNum (ll M)) /\ beside n Ms M) /\
    (forall Ms, existsb issparse Ys = true ->
       Forall2 (fun Y Mc => represents Y (fst Mc) n (snd Mc) /\ (issparse Y = true \/ 1 <= snd Mc)) Ys Ms ->
       exists Y M, t_value (g X) = Ok (DNum Y) /\ issparse Y = true /\
         beside n (map fst Ms) M /\ represents Y M n (list_sum (map snd Ms))).
Proof.
  intros members X n ys X' Ys HB HT HB' HR. destruct (batch_check X n HB) as [EC EL]. destruct (batch_check X' n HB') as [EC' EL'].
  eexists. split; [reflexivity|]. unfold union_transform. rewrite EC.
  assert (E : transform_all (weighted members None) X = (Ok (map (option_map as_arr) ys), X')).
  { clear - HT. unfold weighted. remember (map snd members) as os eqn:Eo. revert members Eo.
    induction HT as [X|o rest f X y ys X' E1 E2 HT IH]; intros [|[nm o'] ms] Eo; try discriminate; [reflexivity|].
    injection Eo as <- ->. cbn [map snd fst transform_all]. unfold transform_one at 1, call_transform. rewrite E1, E2. cbn [bind].
    rewrite (IH ms eq_refl). reflexivity. }
  rewrite E. cbn [t_after]. split; [apply (batch_not_exn _ _ _ _ HB)|].
  assert (EM : map (fun y => match y with None => as_arr X' | Some Y => Y end) (map (option_map as_arr) ys) = Ys).
  { clear - HR. induction HR as [|y Y ys Ys H HR IH]; [reflexivity|]. cbn [map]. rewrite IH. f_equal. unfold reads in H. destruct y; cbn; rewrite <- H; reflexivity. }
  split.
  - intros Ms EY NM HL. destruct ys as [|y ys]; [inversion HR; subst; destruct Ms; [congruence|discriminate]|].
    destruct (dense_union_ok Ms n NM HL) as (M & EU & HM). exists M. split; auto.
    unfold t_value. cbn [t_out bind]. change (map (option_map as_arr) (y :: ys)) with (option_map as_arr y :: map (option_map as_arr) ys) in *. cbv iota beta.
    rewrite EM, EY. assert (Hsp : existsb issparse (map (@ll A) Ms) = false) by (clear; induction Ms; cbn; auto).
    rewrite Hsp, EL'. cbn [bind]. rewrite EU. reflexivity.
  - intros Ms HS HF. destruct ys as [|y ys]; [inversion HR; subst; discriminate|].
    assert (G2 : reps (fun Y M c => represents Y M n c /\ wide Y c) Ys (map fst Ms) (map snd Ms)).
    { clear - HF. induction HF as [|Y [M c] Ys Ms [H1 H2] HF IH]; constructor; auto. }
    destruct (sparse_union_ok Ys (map fst Ms) (map snd Ms) n G2) as (rows & M & EU & HM & HSt).
    { intro Hb. rewrite Hb in HS. discriminate. }
    { apply HB. }
    exists (Sp rows (Some (Z.of_nat (list_sum (map snd Ms)))) DFloat), M. split; [|split; [reflexivity|split; [exact HM|]]].
    + unfold t_value. cbn [t_out bind]. change (map (option_map as_arr) (y :: ys)) with (option_map as_arr y :: map (option_map as_arr) ys) in *. cbv iota beta.
      rewrite EM, HS, EL', EU. reflexivity.
    + split; [|right; exists rows, DFloat; auto]. destruct HM as [HL HM]. split; auto.
      apply Forall_forall. intros row Hin. apply In_nth_error in Hin. destruct Hin as (i & Hi).
      destruct (HM i row Hi) as (rs & Hrs & ->). clear -G2 Hrs. revert rs Hrs.
      induction G2 as [|Y M0 c Ys' Ms' cs [[HR _] _] G2 IH]; intros rs Hrs; inversion Hrs as [|? r ? rs' Er Hrs']; subst; auto.
      cbn [concat list_sum]. rewrite app_length, (IH _ Hrs'). unfold list_sum. cbn.
      assert (length r = c) as ->; [|reflexivity]. destruct HR as [_ HR]. rewrite Forall_forall in HR.
      apply HR. eapply nth_error_In; eauto.
Qed.

(** Without members the result is a zero matrix of X's shape. *)
Theorem C49_no_members : forall (M : list (list A)) r c weights,
  rect M r c -> 1 <= r ->
  gives (feature_union (L:=L) (V:=V) [] weights) (DNum (ll M)) (ll (repeat (repeat zero c) r)).
Proof.
  intros M r c weights [HL HW] Hr. eexists. split; [reflexivity|].
  destruct M as [|row M]; [cbn in HL; lia|]. inversion HW as [|? ? Hrow HW']; subst.
  unfold union_transform, check_data, t_value. cbn. rewrite map_length.
  split; [|reflexivity]. do 3 f_equal. unfold ll, rep. rewrite Nat2Z.id. reflexivity.
Qed.

(** The exception of the first failing member is the union's. *)
Theorem C49_raises : forall (pre post : list (pystr * obj A L V)) nm o weights X n Ys f e,
  batch X n ->
  Forall2 (fun m Y => weight_of weights (fst m) = None /\ gives (snd m) X Y) pre Ys ->
  o_transform o = Some f -> t_value (f X) = Err e ->
  exists g, o_transform (feature_union (pre ++ (nm, o) :: post) weights) = Some g /\
    t_value (g X) = Err e.
Proof.
  intros pre post nm o weights X n Ys f e HB HF Ef Ee. destruct (batch_check X n HB) as [EC EL].
  eexists. split; [reflexivity|]. unfold union_transform. rewrite EC.
  assert (HA : exists X', transform_all (weighted (pre ++ (nm, o) :: post) weights) X = (Err e, X')).
  { clear EC EL HB. unfold weighted. rewrite map_app. induction HF as [|m Y pre Ys (EW & g & E1 & E2 & E3) HF IH].
    - cbn [app map fst snd transform_all]. unfold transform_one, call_transform. rewrite Ef.
      eexists. unfold t_value in *. destruct (t_out (f X)) as [y|e'] eqn:Eo; cbn in Ee; [discriminate|].
      injection Ee as ->. destruct weights as [w|]; [destruct (dlookup str_eqb nm w)|]; reflexivity.
    - destruct IH as (X' & IH). exists X'. cbn [app map transform_all].
      unfold weight_of in EW. rewrite EW. cbn [fst snd]. unfold transform_one, call_transform. rewrite E1, E3.
      unfold t_value in E2. destruct (t_out (g X)) as [y|e']; cbn in E2; [|discriminate]. cbn [bind].
      cbn [map fst snd] in IH. rewrite IH. reflexivity. }
  destruct HA as (X' & ->). reflexivity.
Qed.
End Any.
Print Assumptions C48_predict.
Print Assumptions C48_predict_proba.
Print Assumptions C48_predict_log_proba.
Print Assumptions C48_transform.
Print Assumptions C48_methods.
Print Assumptions C49_dense.
Print Assumptions C49_sparse_partial.
Print Assumptions C49_sparse_weight_refuted.
Print Assumptions C49_in_turn.
Print Assumptions C49_no_members.
Print Assumptions C49_raises.

(** Concrete objects: a scaler that subtracts 1, one that does nothing, a
    one-hot encoder with one column of two categories, a two-class linear
    classifier. *)
Section Examples.
  Variable m : libm.
  Let A := F64 m.
  Definition ex_U : textlib :=
    {| x_lower := fun s => s; x_nfkd := fun s => s; x_combining := fun _ => false;
       x_space := fun c => (c =? 32)%Z; x_findall := fun _ s => Ok [s];
       x_decode := fun _ _ b => Ok b |}.
  Definition ex_obj (e : est A nat nat) : obj A nat nat :=
    obj_of Nat.eqb (fun _ => 0) ex_U e.
  Definition ex_std : est A nat nat :=
    EStd {| ss_mean_on := true; ss_std_on := false; ss_scale := None; ss_mean := Some [one] |}.
  Definition ex_id : est A nat nat :=
    EStd {| ss_mean_on := false; ss_std_on := false; ss_scale := None; ss_mean := None |}.
  Definition ex_hot : est A nat nat :=
    EOneHot {| en_dtype := DFloat; en_cats := [[0; 1]]; en_sparse := Some true;
               en_unknown := Some (lit "error") |}.
  Definition ex_lin : est A nat nat :=
    ELinear KPlain {| l_coef := [[one]]; l_classes := [7; 8]; l_intercept := Some [zero];
                      l_multi := None; l_solver := None; l_loss := None |}.
  Definition ex_X : data A nat := DNum (ll [[ofZ 3]; [zero : A]]).

  Definition ex_labels (r : res (preds A nat)) : option (list nat) :=
    match r with Ok (PLab l) => Some l | _ => None end.
  Lemma ex_labels_ok : forall r l, ex_labels r = Some l -> r = Ok (PLab l).
  Proof. intros [[u|u|u]|u] l E; try discriminate. cbn in E. congruence. Qed.

  (** The two rows are mapped to 2 and -1, hence classes 8 and 7; transform is
      absent since the classifier has none, and so is predict_proba. *)
  Example C48_case :
    let p := pipeline [(lit "s", ex_obj ex_std); (lit "c", ex_obj ex_lin)] in
    o_transform p = None /\ o_proba p = None /\ o_classes p = Some [7; 8] /\
    exists g, o_predict p = Some g /\ fst (g ex_X) = Ok (PLab [8; 7]).
  Proof. repeat split. eexists. split; [reflexivity|]. apply ex_labels_ok. vm_compute. reflexivity. Qed.

  (** A step without transform stops the pipeline. *)
  Example C48_no_transform :
    let p := pipeline [(lit "a", ex_obj ex_lin); (lit "b", ex_obj ex_lin)] in
    exists g, o_predict p = Some g /\ fst (g ex_X) = Err AttributeError.
  Proof. eexists. split; reflexivity. Qed.

  (** A dense and a sparse member on two rows. *)
  Example C49_case : exists Y,
    let X := DNum (ll [[one]; [zero : A]]) in
    gives (feature_union [(lit "i", ex_obj ex_id); (lit "h", ex_obj ex_hot)] None) X Y /\
    Y = Sp [[(0%Z, one); (1%Z, one)]; [(1%Z, one)]] (Some 3%Z) DFloat.
  Proof. eexists. split; [|reflexivity]. eexists. split; [reflexivity|]. split; reflexivity. Qed.

  (** ... and the hypotheses of C49_sparse_partial hold of it. *)
  Example C49_case_hyp :
    let X := DNum (ll [[one]; [zero : A]]) in
    let H := Sp [[(0%Z, one : A)]; [(0%Z, one)]] (Some 2%Z) DFloat in
    batch X 2 /\ gives (ex_obj ex_id) X (ll [[one]; [zero : A]]) /\
    gives (ex_obj ex_hot) X H /\ represents H [[one; zero]; [one; zero]] 2 2.
  Proof.
    assert (S : stores [(0%Z, one : A)] [one; zero]).
    { split; [constructor; [auto|constructor]|]. split.
      - intros k [<-|[]]. cbn. lia.
      - intros [|[|j]] v E; cbn in E; try (destruct j; discriminate); injection E as <-.
        + left. exists one. split; [left; auto|auto].
        + right. split; [|reflexivity]. intros [E|[]]. discriminate E. }
    split; [split; [lia|reflexivity]|]. split; [|split].
    - eexists. split; [reflexivity|]. split; reflexivity.
    - eexists. split; [reflexivity|]. split; reflexivity.
    - split; [repeat constructor|]. right. do 2 eexists. split; [reflexivity|]. constructor; [exact S|constructor; [exact S|constructor]].
  Qed.

  (** Two dense members, the second with a weight. *)
  Example C49_dense_case :
    let X := DNum (ll [[one]; [zero : A]]) in
    exists M, gives (feature_union [(lit "i", ex_obj ex_id); (lit "j", ex_obj ex_id)]
                                   (Some [(lit "j", zero)])) X (ll M) /\
              M = [[one; mul one zero]; [zero; mul zero zero]].
  Proof. eexists. split; [|reflexivity]. eexists. split; [reflexivity|]. split; reflexivity. Qed.

  Definition ex_idf : est A nat nat :=
    ETfidf {| tf_norm := None; tf_use_idf := true; tf_sublinear := false; tf_idf := [ofZ 2]; tf_expected := 1 |}.
  Definition ex_shown (r : res (data A nat)) : res (list (list (Z * res Z))) :=
    match r with Ok (DNum (Sp rows _ _)) => Ok (map (map (fun kv => (fst kv, toZ (snd kv)))) rows) | Ok _ => Err TypeError | Err e => Err e end.

  (** So the result is not always the members' own outputs side by side: two
      tf-idf transformers, each of which doubles the only cell of a sparse 1 x 1
      matrix, give a union that holds it four times as large in both columns. *)
  Theorem C49_shared_refuted :
    let X := DNum (Sp [[(0%Z, one : A)]] (Some 1%Z) DFloat) in
    batch X 1 /\
    (exists f, o_transform (ex_obj ex_idf) = Some f /\ ex_shown (t_value (f X)) = Ok [[(0, Ok 2)]]%Z) /\
    (exists g, o_transform (feature_union [(lit "a", ex_obj ex_idf); (lit "b", ex_obj ex_idf)] None) = Some g /\
       ex_shown (t_value (g X)) = Ok [[(0, Ok 4); (1, Ok 4)]]%Z).
  Proof.
    split; [split; [lia|reflexivity]|]. split.
    - eexists. split; [reflexivity|]. vm_compute. reflexivity.
    - eexists. split; [reflexivity|]. vm_compute. reflexivity.
  Qed.

  (** These two members, called in turn. *)
  Example C49_in_turn_case : exists X',
    in_turn [ex_obj ex_idf; ex_obj ex_idf] (DNum (Sp [[(0%Z, one : A)]] (Some 1%Z) DFloat)) [None; None] X' /\ batch X' 1 /\ ex_shown (Ok X') = Ok [[(0, Ok 4)]]%Z.
  Proof.
    eexists. split; [|split].
    - eapply in_turn_cons; [reflexivity|reflexivity|]. eapply in_turn_cons; [reflexivity|reflexivity|]. apply in_turn_nil.
    - split; [lia|reflexivity].
    - vm_compute. reflexivity.
  Qed.
End Examples.
Print Assumptions C49_shared_refuted.
