(** C83: the names of the classes do not matter.  C84: nesting pipelines does
    not matter. *)
From Coq Require Import String.
From Verif Require Import Model.Py Model.Arith Model.F64 Model.Utils Model.Base Model.Text Model.Tree
  Model.Dummy Model.Preprocessing Model.Pipeline Model.Est.
From Verif Require Import Spec.Relabel Proofs.Lib Proofs.Relabel.

Section Names.
  Context {A : arith} {L K V : Type}.
  Variables (f : L -> K) (veq : V -> V -> bool) (vnum : A -> V) (U : textlib).

(** C83.  Take any converted estimator, pipelines and ensembles included, and
    the same one with every class name [c] replaced by [f c] ([f] need not even
    be injective).  [classes_] shows the new names; [predict] gives the old
    answer with the names replaced, or the same exception, and has the same
    effect on its argument ... *)
Theorem C83_labels : forall e : est A L V,
  o_classes (obj_of veq vnum U (relabel f e)) = option_map (map f) (o_classes (obj_of veq vnum U e)) /\
  both (fun r r' => snd r' = snd r /\
                    match fst r with
                    | Ok p => fst r' = Ok (renamed f p)
                    | Err x => fst r' = Err x
                    end)
       (o_predict (obj_of veq vnum U e)) (o_predict (obj_of veq vnum U (relabel f e))).
Proof.
  intro e. destruct (obj_renames f veq vnum U e) as (_ & P & _ & _ & C). split; [exact C|].
  destruct (o_predict (obj_of veq vnum U e)) as [g|], (o_predict (obj_of veq vnum U (relabel f e))) as [g'|]; auto. intro X. cbn in P. rewrite (P X).
  split; [reflexivity|]. cbn [fst]. destruct (fst (g X)); reflexivity.
Qed.

(** ... and probabilities, log-probabilities and transformed data are the same,
    bit for bit. *)
Theorem C83_numbers : forall e : est A L V,
  both eq (o_transform (obj_of veq vnum U e)) (o_transform (obj_of veq vnum U (relabel f e))) /\
  both eq (o_proba (obj_of veq vnum U e)) (o_proba (obj_of veq vnum U (relabel f e))) /\
  both eq (o_log_proba (obj_of veq vnum U e)) (o_log_proba (obj_of veq vnum U (relabel f e))).
Proof. intro e. destruct (obj_renames f veq vnum U e) as (T & _ & P & Q & _). auto. Qed.
End Names.
Print Assumptions C83_labels.
Print Assumptions C83_numbers.

Definition stump2 (m : libm) : tree (F64 m) nat :=
  {| t_left := [1; -1; -1]%Z; t_right := [2; -1; -1]%Z; t_feature := [0; -2; -2]%Z;
     t_thr := [zero; ofZ (-2); ofZ (-2)];
     Tree.t_value := [[ofZ 3; ofZ 2]; [ofZ 2; zero]; [one; ofZ 2]]; t_classes := [7; 9] |}.
Definition labels_are {A : arith} {V} (o : obj A nat V) (X : data A V) (l : list nat) : bool :=
  match o_predict o with
  | Some g => match fst (g X) with
              | Ok (PLab k) => if list_eq_dec Nat.eq_dec k l then true else false
              | _ => false
              end
  | None => false
  end.
Lemma labels_are_ok : forall {A : arith} {V} (o : obj A nat V) X l, labels_are o X l = true ->
  exists g, o_predict o = Some g /\ fst (g X) = Ok (PLab l).
Proof.
  intros A V o X l H. unfold labels_are in H. destruct (o_predict o) as [g|]; [|discriminate]. exists g. split; [reflexivity|].
  destruct (fst (g X)) as [[k| |]|]; try discriminate. destruct (list_eq_dec Nat.eq_dec k l); [subst; reflexivity|discriminate].
Qed.
(** A scaled forest of two trees whose classes 7 and 9 become 70 and 90. *)
Example C83_ex : forall m (U : textlib),
  let e : est (F64 m) nat nat :=
    EPipeline [(lit "s", EMaxAbs (Some [ofZ 2])); (lit "f", EBagging [ETree (stump2 m); ETree (stump2 m)] None [7; 9])] in
  let ob := obj_of (L:=nat) Nat.eqb (fun _ => 0) U in
  let X := DNum (ll [[zero]; [one]]) in
  exists g g', o_predict (ob e) = Some g /\ o_predict (ob (relabel (Nat.mul 10) e)) = Some g' /\
    fst (g X) = Ok (PLab [7; 9]) /\ fst (g' X) = Ok (PLab [70; 90]).
Proof.
  intros m U e ob X. destruct (C83_labels (Nat.mul 10) Nat.eqb (fun _ => 0) U e) as [_ P]. fold ob in P.
  destruct (labels_are_ok (ob e) X [7; 9]) as (g & E & G); [vm_compute; reflexivity|]. rewrite E in P.
  destruct (o_predict (ob (relabel (Nat.mul 10) e))) as [g'|]; [|contradiction].
  exists g, g'. split; [exact E|]. split; [reflexivity|].
  split; [exact G|]. destruct (P X) as [_ Q]. rewrite G in Q. exact Q.
Qed.

Section Nest.
  Context {A : arith} {L V : Type}.

(** C84.  A pipeline used as a step of another pipeline, when its own final
    step is a transformer, can be replaced by its steps: whatever the steps
    are, no call can tell the difference. *)
Theorem C84_step : forall (pre inner post : list (pystr * obj A L V)) nm last_nm final,
  o_transform final <> None -> post <> [] ->
  same_obj (pipeline (pre ++ (nm, pipeline (inner ++ [(last_nm, final)])) :: post))
           (pipeline (pre ++ (inner ++ [(last_nm, final)]) ++ post)).
Proof.
  intros pre inner post nm ln o T NE. destruct (o_transform o) as [g|] eqn:E; [|congruence].
  apply (nested_middle pre (inner ++ [(ln, o)]) post nm o g NE); [|exact E]. rewrite last_app by discriminate. reflexivity.
Qed.

(** As the final step any pipeline can be replaced by its steps ... *)
Theorem C84_final : forall (pre inner : list (pystr * obj A L V)) nm, inner <> [] ->
  same_obj (pipeline (pre ++ [(nm, pipeline inner)])) (pipeline (pre ++ inner)).
Proof. exact nested_last. Qed.

(** ... a pipeline of one step is that step, and step names do not matter. *)
Theorem C84_single : forall nm (o : obj A L V), same_obj (pipeline [(nm, o)]) o.
Proof. exact single. Qed.
Theorem C84_names : forall (steps steps' : list (pystr * obj A L V)), map snd steps = map snd steps' ->
  same_obj (pipeline steps) (pipeline steps').
Proof.
  intros s s' H. assert (E : pipeline s = pipeline s').
  { assert (EL : List.length s = List.length s') by (rewrite <- (map_length snd s), H, map_length; reflexivity).
    assert (E1 : last_step s = last_step s').
    { unfold last_step. rewrite <- !nth_error_map, H, EL. reflexivity. }
    assert (E2 : init_steps s = init_steps s').
    { unfold init_steps. rewrite <- !firstn_map, H, EL. reflexivity. }
    unfold pipeline, pipe_method. rewrite E1, E2, H. reflexivity. }
  rewrite E. unfold same_obj, both.
  destruct (o_transform _), (o_predict _), (o_proba _), (o_log_proba _); auto 10.
Qed.

(** The condition of C84_step is needed: a nested pipeline that ends in a
    classifier has no transform, so the outer one fails before its first step
    could. *)
Theorem C84_classifier_refuted : forall veq vnum (U : textlib) (d : dummy A), exists inner post X g g',
  inner = [(lit "n", obj_of (L:=L) (V:=V) veq vnum U (ENormalizer (lit "l2"))); (lit "d", obj_of veq vnum U (EDummy d))] /\
  o_predict (pipeline ((lit "p", pipeline inner) :: post)) = Some g /\
  o_predict (pipeline (inner ++ post)) = Some g' /\
  fst (g X) = Err AttributeError /\ fst (g' X) = Err TypeError.
Proof.
  intros veq vnum U d. eexists. exists [(lit "e", obj_of veq vnum U (EDummy d))], (DDocs (RawDocs [])). eexists. eexists.
  split; [reflexivity|]. split; [reflexivity|]. split; [reflexivity|]. split; reflexivity.
Qed.
End Nest.
Print Assumptions C84_step.
Print Assumptions C84_final.
Print Assumptions C84_single.
Print Assumptions C84_names.
Print Assumptions C84_classifier_refuted.

(** Two scalers nested in front of a tree. *)
Example C84_ex : forall m (U : textlib),
  let ob := obj_of (A:=F64 m) (L:=nat) Nat.eqb (fun _ => 0) U in
  let s1 := (lit "a", ob (EMaxAbs (Some [ofZ 2]))) in
  let s2 := (lit "b", ob (ENormalizer (lit "l1"))) in
  let t := (lit "t", ob (ETree (stump2 m))) in
  same_obj (pipeline [(lit "p", pipeline [s1; s2]); t]) (pipeline [s1; s2; t]) /\
  exists g, o_predict (pipeline [(lit "p", pipeline [s1; s2]); t]) = Some g /\
    fst (g (DNum (ll [[ofZ (-3)]; [one]]))) = Ok (PLab [7; 9]).
Proof.
  intros m U ob s1 s2 t. split.
  - apply (C84_step [] [s1] [t] (lit "p") (lit "b") (ob (ENormalizer (lit "l1")))); discriminate.
  - apply labels_are_ok. vm_compute. reflexivity.
Qed.
