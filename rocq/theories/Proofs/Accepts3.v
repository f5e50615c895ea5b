(** Proofs that well-formed inputs are accepted: every transformer. *)
From Coq Require Import String Lia.
From Verif Require Import Model.Py Model.Arith Model.Utils Model.Base Model.Hash Model.DictVec Model.Text Model.Tree
  Model.Ensemble Model.Xgb Model.Linear Model.NaiveBayes Model.Dummy Model.Preprocessing Model.Encoders
  Model.Impute Model.Pipeline Model.Est.
From Verif Require Import Spec.Matrix Spec.Encode Spec.Impute Spec.Pipeline Spec.Accepts Proofs.Lib Proofs.Laws Proofs.Argmax Proofs.Arrays Proofs.Encode Proofs.Text Proofs.Pipeline Proofs.Accepts Proofs.Accepts2.

Scheme maps_ind := Induction for maps_to Sort Prop
  with joins_ind := Induction for joins Sort Prop.
Combined Scheme maps_joins from maps_ind, joins_ind.

Section Transformers.
  Context {A : arith} (TA : total_arith A) {L V : Type} (veq : V -> V -> bool) (vnum : A -> V) (U : textlib).
  Hypothesis veq_ok : forall a b, veq a b = true <-> a = b.
  Hypothesis GU : good_lib U.
  Notation ob := (obj_of (A:=A) (L:=L) veq vnum U).
  Notation form := (form V).

  Definition num_form (s : form) : Prop := match s with FRows _ | FSparse _ => True | _ => False end.
  Definition handles (o : obj A L V) (s s' : form) : Prop := num_form s' /\ exists f, o_transform o = Some f /\
    forall n X, 1 <= n -> of_form s n X -> (exists Y, t_value (f X) = Ok Y /\ of_form s' n Y) /\ of_form s n (t_after (f X)).

  Lemma form_unique : forall s s' n (X : data A V), 1 <= n -> num_form s' -> of_form s n X -> of_form s' n X -> s = s'.
  Proof.
    assert (R : forall (M M' : list (list A)) n w w', 1 <= n -> ll M = ll M' -> rect M n w -> rect M' n w' -> w = w').
    { intros M M' n w w' Hn E [LM FM] [LM' FM']. destruct M as [|r M]; [cbn in LM; lia|]. destruct M' as [|r' M']; [discriminate|]. injection E as E1 _. subst r'. inversion FM; inversion FM'. congruence. }
    intros s s' n X Hn Q H1 H2. destruct s, s'; try contradiction; cbn [of_form] in *;
      repeat match goal with H : exists _, _ |- _ => destruct H | H : _ /\ _ |- _ => destruct H end; subst; try discriminate.
    - match goal with H : DNum _ = DNum _ |- _ => injection H as H end. f_equal. eapply (R x0 x); eauto. unfold ll. congruence.
    - match goal with H : DNum _ = DNum _ |- _ => injection H as H end. f_equal. lia.
  Qed.

  Lemma fresh_handles : forall o f s s', num_form s' -> o_transform o = fresh f -> (forall n X, 1 <= n -> of_form s n X -> exists Y, f X = Ok Y /\ of_form s' n (DNum Y)) -> handles o s s'.
  Proof.
    intros o f s s' Q E H. split; auto. eexists. split; [exact E|]. intros n X Hn HX. cbn [t_after]. split; auto. destruct (H n X Hn HX) as (Y & EY & FY). exists (DNum Y). split; auto.
    unfold t_value. cbn [t_out]. rewrite EY. reflexivity.
  Qed.

  (** Encoders. *)
  Lemma list_sum_two : forall (l : list nat) i, nth i (0 :: l) 0 + nth i l 0 <= list_sum l.
  Proof.
    assert (G : forall (l : list nat) i, nth i l 0 + nth (S i) l 0 <= list_sum l).
    { induction l as [|a l IH]; intros [|i]; cbn [nth list_sum fold_right]; try lia. change (fold_right Nat.add 0 l) with (list_sum l). destruct l; cbn [nth list_sum fold_right]; lia.
      specialize (IH i). change (fold_right Nat.add 0 l) with (list_sum l). cbn [nth] in IH. lia. }
    intros l [|i]; [|apply (G l i)]. destruct l; cbn [nth list_sum fold_right]; lia.
  Qed.
  Lemma oh_rows_ok : forall (e : encoder V) x n m, Forall (@NoDup V) (en_cats e) -> m = length (en_cats e) ->
    length (oh_rows (A:=A) veq e x n m) = n /\ Forall (row_of (list_sum (map (@length V) (en_cats e)))) (oh_rows (A:=A) veq e x n m).
  Proof.
    intros e x n m ND Hm. unfold oh_rows. rewrite map_length, seq_length. split; auto. apply Forall_forall. intros d Hd. apply in_map_iff in Hd. destruct Hd as (j & <- & Hj).
    apply in_seq in Hj. split; [apply (NoDup_dict_of Z.eqb Zeqb_ok)|]. intros k Hk. apply in_map_iff in Hk. destruct Hk as ([p v] & <- & Hk).
    apply (oh_in veq veq_ok e ND x n m j p v) in Hk; auto; [|lia]. destruct Hk as (_ & i & c & Hi & (ct & Ec & Ek) & ->). cbn [fst].
    assert (c < length ct) by (apply nth_error_Some; congruence). pose proof (list_sum_two (map (@length V) (en_cats e)) i) as Q.
    assert (E : nth i (map (@length V) (en_cats e)) 0 = length ct). { apply nth_error_nth. rewrite nth_error_map, Ec. reflexivity. }
    rewrite E in Q. unfold offs. lia.
  Qed.
  Lemma onehot_form : forall (e : encoder V) u sp (M : list (list V)) n, en_unknown e = Some u -> en_sparse e = Some sp -> Forall (@NoDup V) (en_cats e) -> en_cats e <> [] ->
    1 <= n -> rect M n (length (en_cats e)) -> (~ unknown_cell (en_cats e) M \/ u <> lit "error" /\ Forall (fun c => c <> []) (en_cats e)) ->
    exists Y, onehot_transform (A:=A) veq e (ll M) = Ok Y /\ of_form (if sp then FSparse (list_sum (map (@length V) (en_cats e))) else FRows (list_sum (map (@length V) (en_cats e)))) n (DNum (V:=V) Y).
  Proof.
    intros e u sp M n Hu Hs ND NE Hn R HK. assert (Hm : 1 <= length (en_cats e)) by (destruct (en_cats e); [congruence|cbn; lia]).
    destruct (rect_tab M n (length (en_cats e)) R Hn Hm) as [x ->].
    pose proof (oh_rows_ok e x n (length (en_cats e)) ND eq_refl) as [LR FR].
    rewrite (onehot_ok veq veq_ok e ND (ta_conv _ TA _) u sp n (length (en_cats e)) x); auto.
    - eexists. split; [reflexivity|]. unfold oh_out. destruct sp.
      + cbn [of_form]. eexists _, _. split; [reflexivity|]. auto.
      + cbn [of_form]. eexists. split; [reflexivity|]. split; [rewrite map_length; auto|]. apply Forall_forall. intros r Hr. apply in_map_iff in Hr.
        destruct Hr as (d & <- & _). rewrite map_length, zrange_length. unfold total. lia.
    - destruct HK as [HK|[H1 H2]].
      + left. destruct (known_dec veq (en_cats e) n (length (en_cats e)) x) as [K|K]; auto. exfalso. apply HK. apply (unknown_tab veq veq_ok); auto.
      + right. split; auto. destruct (str_eqb u (lit "error")) eqn:E; auto. apply str_eqb_ok in E. congruence.
  Qed.
  Lemma ordinal_form : forall (e : encoder V) (M : list (list V)) n, Forall (@NoDup V) (en_cats e) -> en_cats e <> [] -> en_dtype e <> DInt ->
    1 <= n -> rect M n (length (en_cats e)) -> ~ unknown_cell (en_cats e) M ->
    exists D, ordinal_transform (A:=A) veq e (ll M) = Ok D /\ rect D n (length (en_cats e)).
  Proof.
    intros e M n ND NE HD Hn R HK. assert (Hm : 1 <= length (en_cats e)) by (destruct (en_cats e); [congruence|cbn; lia]).
    destruct (rect_tab M n (length (en_cats e)) R Hn Hm) as [x ->]. unfold ordinal_transform.
    rewrite (enc_ok veq veq_ok e ND (lit "error") n (length (en_cats e)) x); auto.
    - cbn [bind]. set (T := tab n _ (codes _ _ _ _)). assert (RT : rect T n (length (en_cats e))) by apply tab_rect. clearbody T.
      destruct (mapM_all (mapM (fun c => conv (A:=A) (en_dtype e) (ofnat c))) (fun r => length r = length (en_cats e)) T) as (D & -> & LD & FD).
      + intros r Hr. destruct (mapM_all (fun c => conv (A:=A) (en_dtype e) (ofnat c)) (fun _ => True) r) as (r' & -> & LR & _).
        * intros c _. unfold conv. destruct (en_dtype e); [eauto|congruence|eauto].
        * exists r'. split; auto. destruct RT as [_ F]. rewrite Forall_forall in F. rewrite LR. auto.
      + exists D. split; auto. split; auto. rewrite LD. apply RT.
    - left. destruct (known_dec veq (en_cats e) n (length (en_cats e)) x) as [K|K]; auto. exfalso. apply HK. apply (unknown_tab veq veq_ok); auto.
  Qed.

  (** Pipelines. *)
  Lemma last_step_cons : forall nm (o : obj A L V) x rest, last_step ((nm, o) :: x :: rest) = last_step (x :: rest).
  Proof. intros. unfold last_step. cbn [length Nat.sub nth_error]. rewrite Nat.sub_0_r. reflexivity. Qed.
  Lemma run_some_after : forall (steps : list (obj A L V)) Y X, t_after (run_steps steps (Some Y) X) = X.
  Proof.
    induction steps as [|o rest IH]; intros Y X; cbn [run_steps]; auto. destruct (t_out (call_transform o Y)) as [[D|]|e]; cbn [t_after]; auto.
  Qed.
  Lemma pipe_last : forall nm o s s', handles o s s' -> handles (pipeline [(nm, o)]) s s'.
  Proof.
    intros nm o s s' (Q & f & E & H). split; auto. cbn [pipeline o_transform]. unfold last_step. cbn [length Nat.sub nth_error option_map snd]. rewrite E. eexists. split; [reflexivity|].
    intros n X Hn HX. cbn [map snd run_steps]. unfold call_transform. rewrite E. destruct (H n X Hn HX) as [(Y & EY & FY) HA]. unfold t_value in EY.
    destruct (t_out (f X)) as [y|] eqn:EO; cbn [bind] in EY; [|discriminate]. injection EY as EY. cbn [run_steps t_after]. split; auto.
    exists Y. split; auto. unfold t_value. cbn [t_out bind t_after]. rewrite <- EY. reflexivity.
  Qed.
  Lemma pipe_step : forall nm o rest s s1 s2, handles o s s1 -> handles (pipeline rest) s1 s2 -> handles (pipeline ((nm, o) :: rest)) s s2.
  Proof.
    intros nm o rest s s1 s2 (Q & f & E & H) (Q2 & g & EG & HG). split; auto. destruct rest as [|x rest]; [discriminate|]. cbn [pipeline o_transform] in *. rewrite last_step_cons.
    destruct (last_step (x :: rest)) as [final|]; [|discriminate]. destruct (o_transform final); [|discriminate]. assert (EG' : g = run_steps (map snd (x :: rest)) None) by congruence. subst g. clear EG.
    eexists. split; [reflexivity|]. intros n X Hn HX. destruct (H n X Hn HX) as [(Y & EY & FY) HA]. destruct (HG n Y Hn FY) as [(W & EW & FW) HAW]. split.
    - exists W. split; auto. apply run_ok. cbn [start map snd]. econstructor; [exact E|exact EY|]. apply run_ok in EW. exact EW.
    - change (map snd ((nm, o) :: x :: rest)) with (o :: map snd (x :: rest)). revert HAW. generalize (map snd (x :: rest)). intros rs HAW. cbn [run_steps]. unfold call_transform. rewrite E. unfold t_value in EY. destruct (t_out (f X)) as [[D|]|] eqn:EO; cbn [bind] in EY; try discriminate.
      + rewrite run_some_after. auto.
      + injection EY as EY. rewrite <- EY in *. assert (ES : s = s1) by (eapply form_unique; eauto). subst s1. exact HAW.
  Qed.

  (** Unions. *)
  Definition sform (o : bool * nat) : form := if fst o then FSparse (snd o) else FRows (snd o).
  Definition shares (ms : list (obj A L V * option A)) (s : form) (out : list (bool * nat)) : Prop :=
    forall n X, 1 <= n -> of_form s n X -> exists ys X2, transform_all ms X = (Ok ys, X2) /\ of_form s n X2 /\
      Forall2 (fun y o => match y with None => sform o = s | Some Y => of_form (sform o) n (DNum (V:=V) Y) end) ys out.

  Lemma shares_cons : forall o wt ms s b w out, handles o s (sform (b, w)) -> (b = true -> wt = None) -> shares ms s out -> shares ((o, wt) :: ms) s ((b, w) :: out).
  Proof.
    intros o wt ms s b w out (Q & f & E & H) HB HS n X Hn HX. destruct (H n X Hn HX) as [(Y & EY & FY) HA].
    assert (T : exists y, transform_one o wt X = (Ok y, t_after (f X)) /\ match y with None => sform (b, w) = s | Some Y => of_form (sform (b, w)) n (DNum (V:=V) Y) end).
    { unfold transform_one, call_transform. rewrite E. destruct wt as [wt|].
      - rewrite EY. cbn [bind]. destruct b; [specialize (HB eq_refl); discriminate|]. cbn [sform fst snd of_form] in *. destruct FY as (M & -> & RM). cbn [as_arr].
        rewrite (scaled_apply wt M (map (map (fun x => mul x wt)) M)).
        + cbn [bind]. eexists. split; [reflexivity|]. eexists. split; [reflexivity|]. split; [rewrite map_length; apply RM|].
          apply Forall_forall. intros r Hr. apply in_map_iff in Hr. destruct Hr as (r0 & <- & Hr). rewrite map_length. destruct RM as [_ F]. rewrite Forall_forall in F. auto.
        + cbn [scaled]. clear. induction M as [|r M IH]; cbn [map]; constructor; auto. induction r; cbn [map]; constructor; auto.
      - unfold t_value in EY. destruct (t_out (f X)) as [[D|]|] eqn:EO; cbn [bind] in EY; try discriminate; injection EY as <-; cbn [bind option_map].
        + eexists. split; [reflexivity|]. cbv beta iota. destruct D; cbn [as_arr]; auto; destruct b; cbn in FY; repeat match goal with H : exists _, _ |- _ => destruct H | H : _ /\ _ |- _ => destruct H end; discriminate.
        + eexists. split; [reflexivity|]. cbv beta iota. symmetry. eapply form_unique; eauto. }
    destruct T as (y & ET & HY). destruct (HS n (t_after (f X)) Hn HA) as (ys & X2 & EA & F2 & FF). cbn [transform_all]. rewrite ET, EA. exists (y :: ys), X2. repeat split; auto.
  Qed.

  Lemma form_check : forall s n (X : data A V), 1 <= n -> of_form s n X -> check_data X = Ok X /\ data_len X = Ok n.
  Proof.
    intros s n X Hn H. destruct s; cbn [of_form] in H.
    - destruct H as (M & -> & LM & _). destruct M as [|r M]; [cbn in LM; lia|]. split; [reflexivity|]. cbn [data_len]. unfold ll, len. cbn [items bind]. rewrite map_length. congruence.
    - destruct H as (rows & dt & -> & LM & _). split; [reflexivity|]. cbn [data_len]. unfold len. cbn [items bind]. rewrite map_length. congruence.
    - destruct H as (l & -> & LM & _). destruct l as [|r M]; [cbn in LM; lia|]. split; [reflexivity|]. cbn [data_len]. rewrite map_length. congruence.
    - destruct H as (l & -> & LM). destruct l as [|r M]; [cbn in LM; lia|]. split; [reflexivity|]. cbn [data_len]. congruence.
    - destruct H as (M & -> & LM & _). destruct M as [|r M]; [cbn in LM; lia|]. split; [reflexivity|]. cbn [data_len]. unfold ll, len. cbn [items bind]. rewrite map_length. congruence.
    - destruct H as (M & -> & (LM & _) & _). destruct M as [|r M]; [cbn in LM; lia|]. split; [reflexivity|]. cbn [data_len]. unfold ll, len. cbn [items bind]. rewrite map_length. congruence.
  Qed.

  Lemma beside_rect : forall n Ms (M : list (list A)) cs, beside n Ms M -> Forall2 (fun M c => rect M n c) Ms cs -> rect M n (list_sum cs).
  Proof.
    intros n Ms M cs [LM HM] F. split; auto. apply Forall_forall. intros row Hr. apply In_nth_error in Hr. destruct Hr as [i Hi]. destruct (HM i row Hi) as (rows & F2 & ->). clear -F F2.
    revert rows F2. induction F as [|M0 c Ms cs R F IH]; intros rows F2; inversion F2; subst; [reflexivity|]. cbn [concat list_sum fold_right]. rewrite app_length. change (fold_right Nat.add 0 cs) with (list_sum cs). rewrite IH by auto. f_equal. destruct R as [_ R]. rewrite Forall_forall in R. apply R. eapply nth_error_In; eauto.
  Qed.
  Lemma stores_get : forall w (d : dict Z A), row_of w d -> stores d (map (fun p => dget_default Z.eqb d p zero) (zrange 0 (Z.of_nat w))).
  Proof.
    intros w d [N K]. split; auto. split; [intros k Hk; rewrite map_length, zrange_length; specialize (K k Hk); lia|]. intros j v Hj. rewrite nth_error_map in Hj.
    destruct (nth_error (zrange 0 (Z.of_nat w)) j) as [p|] eqn:E; [|discriminate]. cbn in Hj. injection Hj as <-.
    assert (EP : p = Z.of_nat j). { unfold zrange in E. rewrite nth_error_map in E. destruct (nth_error (seq 0 _) j) as [q|] eqn:EQ; [|discriminate]. cbn in E. injection E as <-. rewrite nth_error_seq in EQ. destruct (_ <? _); [|discriminate]. injection EQ as <-. lia. }
    subst p. unfold dget_default. destruct (dlookup Z.eqb (Z.of_nat j) d) as [v|] eqn:EL.
    - left. exists v. split; auto. apply (dlookup_in Z.eqb Zeqb_ok) in EL. auto.
    - right. split; [|apply (ta_zero _ TA)]. intro Hin. apply in_map_iff in Hin. destruct Hin as ([k v] & Ek & Hin). cbn in Ek. subst k.
      rewrite (dlookup_nodup Z.eqb Zeqb_ok (Z.of_nat j) v d N Hin) in EL. discriminate.
  Qed.
  Lemma stores_row : forall (d : dict Z A) r w, stores d r -> length r = w -> row_of w d.
  Proof. intros d r w (N & K & _) <-. split; auto. Qed.

  Lemma members_of : forall n s ys out X2, of_form (A:=A) s n X2 ->
    Forall2 (fun y o => match y with None => sform o = s | Some Y => of_form (sform o) n (DNum (V:=V) Y) end) ys out ->
    Forall2 (fun Y o => of_form (sform o) n (DNum (V:=V) Y)) (map (fun y => match y with None => as_arr X2 | Some Y => Y end) ys) out.
  Proof.
    intros n s ys out X2 HX F. induction F as [|y o ys out H F IH]; cbn [map]; constructor; auto. destruct y as [Y|]; auto. rewrite <- H in HX.
    destruct X2; cbn [as_arr]; auto; destruct o as [[] w]; cbn in HX; repeat match goal with H : exists _, _ |- _ => destruct H | H : _ /\ _ |- _ => destruct H end; discriminate.
  Qed.
  Lemma dense_members : forall n Xs out, Forall2 (fun Y o => of_form (A:=A) (sform o) n (DNum (V:=V) Y)) Xs out -> Forall (fun o => fst o = false) out ->
    exists Ms, Xs = map ll Ms /\ Forall2 (fun M c => rect M n c) Ms (map snd out) /\ existsb issparse Xs = false.
  Proof.
    intros n Xs out F. induction F as [|Y [b w] Xs out H F IH]; intros FB; [exists []; repeat split; constructor|]. inversion FB as [|? ? HB FB']; subst. cbn [fst] in HB. subst b.
    destruct (IH FB') as (Ms & -> & F2 & E). cbn [sform fst snd of_form] in H. destruct H as (M & EM & RM). injection EM as ->. exists (M :: Ms). repeat split; auto. cbn [map snd]. constructor; auto.
  Qed.
  Lemma sparse_members : forall n Xs out, Forall2 (fun Y o => of_form (A:=A) (sform o) n (DNum (V:=V) Y)) Xs out -> Forall (fun o => fst o = false -> 1 <= snd o) out ->
    exists Ms, reps (fun Y M c => represents Y M n c /\ wide Y c) Xs Ms (map snd out) /\ Forall2 (fun M c => rect M n c) Ms (map snd out) /\ (Exists (fun o => fst o = true) out -> existsb issparse Xs = true).
  Proof.
    intros n Xs out F. induction F as [|Y [b w] Xs out H F IH]; intros FB; [exists []; repeat split; try constructor; intro E; inversion E|].
    inversion FB as [|? ? HB FB']; subst. destruct (IH FB') as (Ms & R & F2 & E). cbn [fst snd] in HB. cbn [sform fst snd] in H. destruct b; cbn [of_form] in H.
    - destruct H as (rows & dt & EM & LR & FR). injection EM as ->. set (M := map (fun d => map (fun p => dget_default Z.eqb d p zero) (zrange 0 (Z.of_nat w))) rows).
      assert (RM : rect M n w). { split; [unfold M; rewrite map_length; auto|]. apply Forall_forall. intros r Hr. apply in_map_iff in Hr. destruct Hr as (d & <- & _). rewrite map_length, zrange_length. lia. }
      exists (M :: Ms). cbn [map snd]. split; [|split; [constructor; auto|reflexivity]]. constructor; auto. split; [|left; reflexivity]. split; auto. right. eexists _, _. split; [reflexivity|].
      unfold M. clear -FR TA. induction FR; cbn [map]; constructor; auto. apply stores_get; auto.
    - destruct H as (M & EM & RM). injection EM as ->. exists (M :: Ms). cbn [map snd]. split; [|split; [constructor; auto|]].
      + constructor; auto. split; [|right; auto]. split; auto.
      + intro EX. inversion EX as [? ? EB|? ? EB]; subst; [discriminate|]. cbn [existsb]. rewrite E by auto. apply orb_true_r.
  Qed.

  Lemma union_handles : forall (os : list (pystr * obj A L V)) ws s out s', shares (weighted os ws) s out -> os <> [] ->
    (Forall (fun o => fst o = false) out /\ s' = FRows (list_sum (map snd out)) \/
     Exists (fun o => fst o = true) out /\ Forall (fun o => fst o = false -> 1 <= snd o) out /\ s' = FSparse (list_sum (map snd out))) ->
    handles (feature_union os ws) s s'.
  Proof.
    intros os ws s out s' HS NE HF. split; [destruct HF as [(_ & ->)|(_ & _ & ->)]; exact I|]. eexists. split; [reflexivity|]. intros n X Hn HX.
    destruct (form_check s n X Hn HX) as [EC _]. unfold union_transform. rewrite EC. destruct (HS n X Hn HX) as (ys & X2 & EA & HX2 & FF). rewrite EA.
    cbn [t_after]. assert (EY : ys <> []).
    { intros ->. clear -EA NE. destruct os as [|[nm o] os]; [congruence|]. cbn [weighted map transform_all] in EA. destruct (transform_one _ _ _) as [[y|] X']; [|discriminate]. destruct (transform_all _ X') as [[ys'|] X'']; discriminate. }
    destruct (form_check s n X2 Hn HX2) as [_ EL]. pose proof (members_of n s ys out X2 HX2 FF) as FM. split.
    - unfold t_value. cbn [t_out bind]. rewrite EL. set (Xs := map _ ys) in FM.
      assert (NX : Xs <> []) by (unfold Xs; destruct ys; [congruence|discriminate]).
      assert (UY : exists Y, (if existsb issparse Xs then sparse_union Xs (Ok n) else n <- Ok n ;; dense_union Xs n) = Ok Y /\ of_form s' n (DNum (V:=V) Y)).
      { destruct HF as [[H1 ->]|(H1 & H2 & ->)].
        - destruct (dense_members n Xs out FM H1) as (Ms & -> & F2 & ->). cbn [bind]. destruct (dense_union_ok Ms n) as (M & -> & B).
          + intros ->. apply NX. reflexivity.
          + apply Forall_forall. intros M HM. apply In_nth_error in HM. destruct HM as [i Hi]. clear -F2 Hi. revert i Hi. induction F2 as [|M0 c Ms cs R F IH]; intros [|i] Hi; try discriminate; [injection Hi as <-; apply R|eauto].
          + eexists. split; [reflexivity|]. eexists. split; [reflexivity|]. eapply beside_rect; eauto.
        - destruct (sparse_members n Xs out FM H2) as (Ms & R & F2 & E). rewrite (E H1). destruct (sparse_union_ok Xs Ms (map snd out) n R NX Hn) as (rows & M & -> & B & FS).
          eexists. split; [reflexivity|]. pose proof (beside_rect n Ms M (map snd out) B F2) as RM. eexists _, _. split; [reflexivity|]. split; [rewrite (Forall2_len _ _ _ FS); apply RM|].
          destruct RM as [_ RM]. clear -FS RM. induction FS; [constructor|]. inversion RM; subst. constructor; auto. eapply stores_row; eauto. }
      destruct UY as (Y & EU & FY). exists (DNum Y). split; auto. destruct ys as [|y ys]; [congruence|]. cbn [bind] in EU |- *. fold Xs. rewrite EU. reflexivity.
    - destruct s; cbn [of_form] in HX; destruct X as [[]| | |]; auto; repeat match goal with H : exists _, _ |- _ => destruct H | H : _ /\ _ |- _ => destruct H end; discriminate.
  Qed.

  Lemma tfidf_handles : forall (t : tfidf A) w, good_tfidf t w -> handles (ob (ETfidf t)) (FSparse w) (FSparse w).
  Proof.
    intros t w GT. split; [exact I|]. eexists. split; [reflexivity|]. intros n X Hn (rows & dt & -> & LR & FR).
    destruct (tfidf_ok TA t w rows n dt GT Hn LR FR) as (r1 & r2 & E & L1 & F1 & L2 & F2 & EQ). cbn [tfidf_method]. rewrite E. cbn [t_after]. split; [|eexists _, _; eauto].
    exists (DNum (Sp r2 (Some (Z.of_nat w)) dt)). split; [|eexists _, _; eauto]. unfold t_value. cbn [t_out bind t_after]. destruct (tf_norm t); auto. rewrite (EQ eq_refl). reflexivity.
  Qed.

  Lemma normalizer_check : forall nm n (X : arr A) s, num_form s -> 1 <= n -> of_form s n (DNum (V:=V) X) -> normalizer_transform nm X = normalize_pure X nm 1.
  Proof.
    intros nm n X s Q Hn H. unfold normalizer_transform. destruct (form_check s n _ Hn H) as [E _]. cbn [check_data] in E. destruct (check_array X HAllow) as [X'|]; cbn [bind] in *; congruence.
  Qed.
  Theorem maps_handles : forall e s s', maps_to U e s s' -> handles (ob e) s s'.
  Proof.
    apply (maps_ind A L V U (fun e s s' _ => handles (ob e) s s')
             (fun ms ws s out _ => shares (weighted (map (fun ne => (fst ne, ob (snd ne))) ms) ws) s out)).
    - intros nm w HN HM Hw. eapply fresh_handles; [exact I|reflexivity|]. intros n X Hn (M & -> & R). cbn [as_num]. destruct (normalize_dense TA nm M n w Hn R HN (fun _ => Hw)) as (D & E & RD).
      exists (ll D). split; [rewrite (normalizer_check nm n _ (FRows w)); [exact E|exact I|auto|exists M; auto]|]. exists D. auto.
    - intros nm w HN HM. eapply fresh_handles; [exact I|reflexivity|]. intros n X Hn (M & -> & R). cbn [as_num]. destruct (normalize_dense TA nm M n w Hn R HN (fun q => False_ind _ (HM q))) as (D & E & RD).
      exists (ll D). split; [rewrite (normalizer_check nm n _ (FRows w)); [exact E|exact I|auto|exists M; auto]|]. exists D. auto.
    - intros nm w HN. eapply fresh_handles; [exact I|reflexivity|]. intros n X Hn (rows & dt & -> & LR & FR). cbn [as_num].
      destruct (normalize_sparse TA nm rows n w (Some (Z.of_nat w)) dt Hn LR FR HN) as (D & E & LD & FD). eexists. split; [rewrite (normalizer_check nm n _ (FSparse w)); [exact E|exact I|auto|exists rows, dt; auto]|]. exists D, dt. auto.
    - intros s w HM HS. split; [exact I|]. eexists. split; [reflexivity|]. intros n X Hn (M & -> & R). cbn [std_method t_after as_num]. split; [|exists M; auto].
      destruct (std_dense TA s M n w Hn R HM HS) as (D & E & RD). unfold t_value. cbn [std_method t_out t_after as_num]. rewrite E. cbn [bind].
      destruct (std_same s (ll M)) eqn:ES; [exists (DNum (ll M)); split; auto; exists M; auto|]. exists (DNum (ll D)). split; auto. exists D; auto.
    - intros s w HM HS. split; [exact I|]. eexists. split; [reflexivity|]. intros n X Hn (rows & dt & -> & LR & FR). cbn [std_method t_after as_num]. split; [|exists rows, dt; auto].
      destruct (std_sparse TA s rows n w (Some (Z.of_nat w)) dt Hn LR FR HM HS) as (D & E & LD & FD & _). unfold t_value. cbn [std_method t_out t_after as_num]. rewrite E. cbn [bind].
      destruct (std_same s _); eexists; (split; [reflexivity|]); [exists rows, dt; auto|exists D, dt; auto].
    - intros sc mn w H1 H2. eapply fresh_handles; [exact I|reflexivity|]. intros n X Hn (M & -> & R). cbn [as_num]. destruct (minmax_dense_ok sc mn M n w Hn R H1 H2) as (D & E & RD).
      exists (ll D). split; [exact E|]. exists D. auto.
    - intros sc w H1 H2. eapply fresh_handles; [exact I|reflexivity|]. intros n X Hn (M & -> & R). cbn [as_num]. destruct (maxabs_dense_ok TA sc M n w Hn R H1 H2) as (D & E & RD).
      exists (ll D). split; [exact E|]. exists D. auto.
    - intros sc w H1 H2. eapply fresh_handles; [exact I|reflexivity|]. intros n X Hn (rows & dt & -> & LR & FR). cbn [as_num].
      destruct (maxabs_sparse_ok TA sc rows n w (Some (Z.of_nat w)) dt Hn LR FR H1 H2) as (D & E & LD & FD). eexists. split; [exact E|]. exists D, dt. auto.
    - intros e u sp s Hu Hs ND NE HF. cbv zeta. eapply fresh_handles; [destruct sp; exact I|reflexivity|]. intros n X Hn HX.
      assert (G : exists M, as_cats vnum X = ll M /\ rect M n (length (en_cats e)) /\ (~ unknown_cell (en_cats e) M \/ u <> lit "error" /\ Forall (fun c => c <> []) (en_cats e))).
      { destruct HF as [->|([->| ->] & H2)].
        - destruct HX as (M & -> & R & K). exists M. auto.
        - destruct HX as (M & -> & R). exists M. auto.
        - destruct HX as (M & -> & R). exists (map (map vnum) M). split; [|split; auto].
          + cbn [as_cats]. unfold ll. cbn [arr_map]. rewrite !map_map. reflexivity.
          + split; [rewrite map_length; apply R|]. apply Forall_forall. intros r Hr. apply in_map_iff in Hr. destruct Hr as (r0 & <- & Hr). rewrite map_length. destruct R as [_ F]. rewrite Forall_forall in F. auto. }
      destruct G as (M & -> & R & K). apply (onehot_form e u sp M n); auto.
    - intros e ND NE HD. eapply fresh_handles; [exact I|reflexivity|]. intros n X Hn (M & -> & R & K). cbn [as_cats]. destruct (ordinal_form e M n ND NE HD Hn R K) as (D & E & RD).
      unfold rows_out. rewrite E. cbn [bind]. eexists. split; [reflexivity|]. exists D. auto.
    - intros t w k F. eapply fresh_handles; [exact I|reflexivity|]. intros n X Hn (M & -> & R). cbn [as_num]. destruct (indicator_ok t M n w k Hn R F) as (D & E & RD).
      unfold rows_out. rewrite E. cbn [bind]. eexists. split; [reflexivity|]. exists D. auto.
    - intros s w ks HA HS Hw HK. eapply fresh_handles; [exact I|reflexivity|]. intros n X Hn (M & -> & R). cbn [as_num]. destruct (imputer_plain s M n w ks Hn R HA HS Hw HK) as (D & E & RD).
      unfold rows_out. rewrite E. cbn [bind]. eexists. split; [reflexivity|]. exists D. auto.
    - intros s w ks t k HA HI F HS Hw HK. eapply fresh_handles; [exact I|reflexivity|]. intros n X Hn (M & -> & R). cbn [as_num]. destruct (imputer_marked s M n w ks t k Hn R HA HI F HS Hw HK) as (D & E & RD).
      unfold rows_out. rewrite E. cbn [bind]. eexists. split; [reflexivity|]. exists D. auto.
    - intros d HD GV. eapply fresh_handles; [destruct (dv_sparse d); exact I|reflexivity|]. intros n X Hn (l & -> & LL). cbv beta iota. destruct (dv_ok d l n HD GV Hn LL) as (rows & LR & FR & E). destruct (dv_sparse d).
      + eexists. split; [exact E|]. exists rows, (dv_dtype d). auto.
      + destruct E as (D & E & RD). eexists. split; [exact E|]. exists D. auto.
    - intros c HB HC HV. eapply fresh_handles; [exact I|reflexivity|]. intros n X Hn (l & -> & LL & HT). cbn [as_docs]. destruct (count_ok (A:=A) U GU c l n HB HC HV Hn LL HT) as (rows & E & LR & FR).
      eexists. split; [exact E|]. exists rows, (cv_dtype c). auto.
    - intros t w GT. apply tfidf_handles; auto.
    - intros c t HB HC HV GT. eapply fresh_handles; [exact I|reflexivity|]. intros n X Hn (l & -> & LL & HT). cbn [as_docs]. unfold tfidf_vec_transform.
      destruct (count_ok (A:=A) U GU c l n HB HC HV Hn LL HT) as (rows & E & LR & FR). rewrite E. cbn [bind].
      destruct (tfidf_ok TA t _ rows n (cv_dtype c) GT Hn LR FR) as (r1 & r2 & E' & L1 & F1 & L2 & F2 & _). rewrite E'. cbn [fst]. eexists. split; [reflexivity|]. exists r2, (cv_dtype c). auto.
    - intros h w HB HC HN HW HM. eapply fresh_handles; [exact I|reflexivity|]. intros n X Hn (l & -> & LL & HT). cbn [as_docs].
      destruct (hashvec_ok U GU TA h w l n HB HC HN HW HM Hn LL HT) as (rows & E & LR & FR). eexists. split; [exact E|]. exists rows, (hv_dtype h). auto.
    - intros nm e s s' _ IH. cbn [obj_of map fst snd]. apply pipe_last; auto.
    - intros nm e rest s s1 s2 _ IH1 _ IH2. cbn [obj_of map fst snd] in *. eapply pipe_step; eauto.
    - intros ms ws s out _ IH NE HF. cbn [obj_of]. eapply union_handles; [exact IH|destruct ms; [congruence|discriminate]|]. left. auto.
    - intros ms ws s out HJ IH HE HF. cbn [obj_of]. eapply union_handles; [exact IH| |right; auto]. destruct ms; [|discriminate]. inversion HJ; subst. inversion HE.
    - intros ws s n X Hn HX. cbn [map weighted transform_all]. exists [], X. repeat split; auto.
    - intros nm e ms ws s w out _ IH1 _ IH2. cbn [map weighted fst snd]. apply shares_cons; [exact IH1|discriminate|exact IH2].
    - intros nm e ms ws s w out _ IH1 HW _ IH2. cbn [map weighted fst snd]. apply shares_cons; [exact IH1|intros _; exact HW|exact IH2].
  Qed.
End Transformers.
