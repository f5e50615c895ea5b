(** C32-C34: encoders. *)
From Coq Require Import String Reals Lia Lra.
From Flocq Require Import Core BinarySingleNaN.
From Verif Require Import Model.Py Model.Arith Model.F64 Model.XR Model.Utils Model.Base Model.Encoders.
From Verif Require Import Spec.Matrix Spec.Encode.
From Verif Require Import Proofs.Lib Proofs.Laws Proofs.Round Proofs.Arrays Proofs.Encode.
Local Open Scope nat_scope.

(** C32.  On a matrix of the fitted width all of whose values are known,
    transform returns exactly the matrix of the codes: the cell at (i, j) is the
    index k with categories_j[k] = the input value.  With dtype=int the codes
    are converted without loss. *)
Theorem C32_codes : forall (m : libm) {V} (veq : V -> V -> bool) (e : encoder V) (M : list (list V)) r c,
  (forall a b, veq a b = true <-> a = b) -> Forall (@NoDup V) (en_cats e) ->
  Forall (fun ct => (Z.of_nat (length ct) <= 2 ^ 53)%Z) (en_cats e) -> en_dtype e <> DBool ->
  rect M r c -> 1 <= r -> 1 <= c -> c = length (en_cats e) -> ~ unknown_cell (en_cats e) M ->
  forall D, ordinal_transform (A:=F64 m) veq e (ll M) = Ok D <->
    rect D r c /\ forall i j v x, cell M i j = Some v -> cell D i j = Some x ->
      exists k, has_code (en_cats e) j v k /\ x = ofnat k.
Proof.
  intros m V veq e M r c VE ND LE DT RM Hr Hc Hw HU. destruct (rect_tab M r c RM Hr Hc) as [x ->].
  assert (K : forall i j, i < r -> j < c -> known veq (cj (en_cats e) j) (x i j) = true).
  { destruct (known_dec veq (en_cats e) r c x) as [K|B]; auto. exfalso. apply HU. apply (unknown_tab veq VE); auto. }
  assert (E : ordinal_transform (A:=F64 m) veq e (ll (tab r c x)) = Ok (tab r c (fun i j => ofnat (codes veq (en_cats e) x c i j)))).
  { unfold ordinal_transform. rewrite (enc_ok veq VE e ND (lit "error") r c x Hr Hw (or_introl K)). cbn [bind]. unfold tab at 1.
    rewrite mapM_map. apply mapM_seq_tab. intros i Hi. rewrite mapM_map. apply mapM_seq_tab. intros j Hj.
    assert (C : (Z.of_nat (codes veq (en_cats e) x c i j) <= 2 ^ 53)%Z).
    { unfold codes. replace (j <? c) with true by (symmetry; apply Nat.ltb_lt; lia). rewrite K by auto.
      destruct (cats_nth e ND j) as (_ & _ & En); [lia|]. rewrite Forall_forall in LE. pose proof (LE _ (nth_error_In _ _ En)) as Q.
      pose proof (code_known veq VE _ _ (K i j Hi Hj)) as Q2. apply nth_error_lt in Q2. lia. }
    destruct (en_dtype e); [reflexivity| |congruence]. unfold conv. change (toZ (ofnat (codes veq (en_cats e) x c i j) : F64 m)) with (f_toZ (f_ofZE (Z.of_nat (codes veq (en_cats e) x c i j)) 0)).
    rewrite f_trunc by lia. reflexivity. }
  assert (HC : forall i j, i < r -> j < c -> has_code (en_cats e) j (x i j) (codes veq (en_cats e) x c i j)).
  { intros i j Hi Hj. unfold codes. replace (j <? c) with true by (symmetry; apply Nat.ltb_lt; lia). rewrite K by auto.
    destruct (cats_nth e ND j) as (_ & _ & En); [lia|]. exists (cj (en_cats e) j). split; auto. apply (code_known veq VE). auto. }
  intros D. rewrite E. split.
  - intro H. injection H as <-. split; [apply tab_rect|]. intros i j v y Hv Hy. destruct (cell_lt _ r c i j v (tab_rect r c x) Hv) as [Hi Hj].
    rewrite tab_cell in Hv by auto. rewrite tab_cell in Hy by auto. injection Hv as <-. injection Hy as <-. eauto.
  - intros [RD HD]. f_equal. destruct (rect_tab D r c RD Hr Hc) as [y ->]. apply tab_ext. intros i j Hi Hj.
    destruct (HD i j (x i j) (y i j)) as (k & (ct & Ec & Ek) & ->); try (apply tab_cell; auto). destruct (HC i j Hi Hj) as (ct' & Ec' & Ek').
    rewrite Ec in Ec'. injection Ec' as <-. f_equal. rewrite Forall_forall in ND. eapply NoDup_nth_error; [apply ND; eapply nth_error_In; eauto| |congruence]. eapply nth_error_lt; eauto.
Qed.
Print Assumptions C32_codes.

(** Codes of different categories are different numbers, so the code determines
    the value. *)
Theorem C32_injective : forall (m : libm) k k', (Z.of_nat k <= 2 ^ 53)%Z -> (Z.of_nat k' <= 2 ^ 53)%Z ->
  (ofnat k : F64 m) = ofnat k' -> k = k'.
Proof.
  intros m k k' H H' E. change (f_ofZE (Z.of_nat k) 0 = f_ofZE (Z.of_nat k') 0) in E.
  pose proof (f_trunc (Z.of_nat k) ltac:(lia)) as T. rewrite E, f_trunc in T by lia. injection T as T. lia.
Qed.
Print Assumptions C32_injective.

(** Any unknown value, anywhere, makes transform raise ValueError. *)
Theorem C32_unknown : forall (A : arith) {V} (veq : V -> V -> bool) (e : encoder V) (M : list (list V)) r c,
  (forall a b, veq a b = true <-> a = b) -> Forall (@NoDup V) (en_cats e) ->
  rect M r c -> 1 <= r -> 1 <= c -> c = length (en_cats e) -> unknown_cell (en_cats e) M ->
  ordinal_transform (A:=A) veq e (ll M) = Err ValueError.
Proof.
  intros A V veq e M r c VE ND RM Hr Hc Hw HU. destruct (rect_tab M r c RM Hr Hc) as [x ->].
  unfold ordinal_transform. rewrite (enc_err veq VE e ND (lit "error") r c x Hr Hw eq_refl); auto. apply (unknown_tab veq VE); auto.
Qed.
Print Assumptions C32_unknown.

(** So does a matrix whose width is not the fitted one. *)
Theorem C32_width : forall (A : arith) {V} (veq : V -> V -> bool) (e : encoder V) (M : list (list V)) r c,
  rect M r c -> 1 <= r -> 1 <= c -> c <> length (en_cats e) ->
  ordinal_transform (A:=A) veq e (ll M) = Err ValueError.
Proof.
  intros A V veq e M r c RM Hr Hc Hw. destruct (rect_tab M r c RM Hr Hc) as [x ->].
  unfold ordinal_transform, enc_transform. rewrite check_X_tab by auto. cbn [bind]. destruct (Nat.eqb_spec c (length (en_cats e))); [lia|]. reflexivity.
Qed.
Print Assumptions C32_width.

Definition ex_enc (sp : bool) (u : string) (cats : list (list Z)) : encoder Z :=
  {| en_dtype := DFloat; en_cats := cats; en_sparse := Some sp; en_unknown := Some (lit u) |}.
Example C32_ex : forall m : libm, exists D,
  ordinal_transform (A:=F64 m) Z.eqb (ex_enc true "error" [[3; 5; 9]; [-1; 0]]%Z) (ll [[9; -1]; [3; 0]]%Z) = Ok D /\ cell D 0 0 = Some (ofnat 2).
Proof.
  intros m. assert (H : ~ unknown_cell [[3; 5; 9]; [-1; 0]]%Z [[9; -1]; [3; 0]]%Z).
  { rewrite (unknown_tab Z.eqb Zeqb_ok [[3; 5; 9]; [-1; 0]]%Z 2 2 (fun i j => nth j (nth i [[9; -1]; [3; 0]]%Z []) 0%Z)) by auto.
    intros (i & j & Hi & Hj & E). destruct i as [|[|i]]; [| |lia]; (destruct j as [|[|j]]; [| |lia]); discriminate. }
  set (e := ex_enc true "error" [[3; 5; 9]; [-1; 0]]%Z).
  assert (ND : Forall (@NoDup Z) (en_cats e)) by (repeat constructor; simpl; intuition discriminate).
  assert (Q : ordinal_transform (A:=F64 m) Z.eqb e (ll [[9; -1]; [3; 0]]%Z) = Ok [[ofnat 2; ofnat 0]; [ofnat 0; ofnat 1]]).
  { apply (proj2 (C32_codes m Z.eqb e [[9; -1]; [3; 0]]%Z 2 2 Zeqb_ok ND ltac:(repeat constructor; simpl; lia) ltac:(discriminate) ltac:(repeat constructor) ltac:(lia) ltac:(lia) eq_refl H [[ofnat 2; ofnat 0]; [ofnat 0; ofnat 1]])).
    split; [repeat constructor|]. intros i j v x Hv Hx.
    destruct i as [|[|i]]; [| |destruct i; discriminate]; (destruct j as [|[|j]]; [| |destruct j; discriminate]); injection Hv as <-; injection Hx as <-; (let t k := (exists k; split; [eexists; split; reflexivity|reflexivity]) in first [t 0|t 1|t 2]). }
  eexists. split; [exact Q|reflexivity].
Qed.
Example C32_ex_unknown : forall m : libm,
  ordinal_transform (A:=F64 m) Z.eqb (ex_enc true "error" [[3; 5; 9]; [-1; 0]]%Z) (ll [[9; -1]; [4; 0]]%Z) = Err ValueError.
Proof. intros m. vm_compute. reflexivity. Qed.

(** C33.  The claim as stated is false from three columns on: the one of the
    third column is written at len(categories_1) instead of
    len(categories_0) + len(categories_1).  Here every value is the first
    category of its column, and cell 5, which should be 1, is 0. *)
Theorem C33_refuted : forall m : libm, exists (e : encoder Z) (M D : list (list _)),
  Forall (@NoDup Z) (en_cats e) /\ rect M 1 3 /\ length (en_cats e) = 3 /\ ~ unknown_cell (en_cats e) M /\
  onehot_transform (A:=F64 m) Z.eqb e (ll M) = Ok (ll D) /\ ~ Forall2 (onehot_row (en_cats e)) M D.
Proof.
  intros m. set (e := ex_enc false "error" [[10; 11]; [20; 21; 22]; [30; 31]]%Z).
  assert (ND : Forall (@NoDup Z) (en_cats e)) by (repeat constructor; simpl; intuition discriminate).
  set (x := fun (i j : nat) => nth j [10; 20; 30]%Z 0%Z).
  assert (K : forall i j, i < 1 -> j < 3 -> known Z.eqb (cj (en_cats e) j) (x i j) = true) by (intros i j Hi Hj; destruct j as [|[|[|j]]]; [reflexivity| | |lia]; reflexivity).
  assert (ONE : conv (en_dtype e) (one : F64 m) = Ok one) by reflexivity.
  pose proof (onehot_ok Z.eqb Zeqb_ok e ND ONE (lit "error") false 1 3 x ltac:(lia) ltac:(lia) eq_refl eq_refl eq_refl (or_introl K)) as Q.
  unfold oh_out in Q. set (D := map _ _) in Q.
  exists e, (tab 1 3 x), D. split; auto. split; [apply tab_rect|]. split; auto. split.
  - intros U. apply (unknown_tab Z.eqb Zeqb_ok) in U; auto. destruct U as (i & j & Hi & Hj & U). rewrite K in U by auto. discriminate.
  - split; [exact Q|]. intro F. apply Forall2_nth_error in F. destruct F as [_ F]. specialize (F 0 _ _ eq_refl eq_refl). destruct F as [_ H].
    set (out := map _ _) in H. assert (Z5 : nth_error out 5 = Some (zero : F64 m)) by (vm_compute; reflexivity).
    destruct (H 5 zero Z5) as [H1 _]. assert (E : (zero : F64 m) = one).
    { apply H1. exists 2, 30%Z, 0. repeat split. exists [30; 31]%Z. split; reflexivity. }
    assert (eqb (zero : F64 m) one = false) by reflexivity. rewrite E in H0. vm_compute in H0. discriminate.
Qed.
Print Assumptions C33_refuted.

Lemma conv_one : forall (m : libm) dt, conv dt (one : F64 m) = Ok one.
Proof.
  intros m [| |]; [reflexivity| |reflexivity]. unfold conv. change (toZ (one : F64 m)) with (f_toZ (f_ofZE 1 0)). rewrite f_trunc by lia. reflexivity.
Qed.

(** C33 for encoders of one or two columns: the dense result, and the matrix the
    sparse result stores, is the one-hot encoding of the input. *)
Theorem C33_partial : forall (m : libm) {V} (veq : V -> V -> bool) (e : encoder V) u sp (M : list (list V)) r c,
  (forall a b, veq a b = true <-> a = b) -> Forall (@NoDup V) (en_cats e) ->
  en_unknown e = Some u -> en_sparse e = Some sp ->
  rect M r c -> 1 <= r -> 1 <= c <= 2 -> c = length (en_cats e) -> ~ unknown_cell (en_cats e) M ->
  exists D, Forall2 (onehot_row (A:=F64 m) (en_cats e)) M D /\
    (if sp then exists rows, onehot_transform veq e (ll M) = Ok (Sp rows (Some (Z.of_nat (list_sum (map (@length V) (en_cats e))))) (en_dtype e)) /\ Forall2 stores rows D
     else onehot_transform veq e (ll M) = Ok (ll D)).
Proof.
  intros m V veq e u sp M r c VE ND HU HS RM Hr Hc Hw NU. destruct (rect_tab M r c RM Hr ltac:(lia)) as [x ->].
  assert (K : forall i j, i < r -> j < c -> known veq (cj (en_cats e) j) (x i j) = true).
  { destruct (known_dec veq (en_cats e) r c x) as [K|B]; auto. exfalso. apply NU. apply (unknown_tab veq VE); auto. }
  pose proof (onehot_ok (A:=F64 m) veq VE e ND (conv_one m _) u sp r c x Hr ltac:(lia) Hw HU HS (or_introl K)) as Q.
  destruct (onehot_correct (A:=F64 m) veq VE e ND x r c Hw) as [C1 C2]; [intros i Hi; apply (offs_block e ND); lia|].
  eexists. split; [exact C1|]. rewrite Q. unfold oh_out. destruct sp; auto. eexists. split; [reflexivity|]. apply C2. reflexivity.
Qed.
Print Assumptions C33_partial.

Example C33_ex : Forall (@NoDup Z) [[3; 5; 9]; [-1; 0]]%Z /\ ~ unknown_cell [[3; 5; 9]; [-1; 0]]%Z [[9; -1]; [3; 0]]%Z /\
  (forall m : libm, match onehot_transform (A:=F64 m) Z.eqb (ex_enc true "error" [[3; 5; 9]; [-1; 0]]%Z) (ll [[9; -1]; [3; 0]]%Z) with
    | Ok (Sp rows sz _) => Some (map (map fst) rows, sz) | _ => None end = Some ([[2; 3]; [0; 4]]%Z, Some 5%Z)).
Proof.
  split; [repeat constructor; simpl; intuition discriminate|]. split; [|intro m; vm_compute; reflexivity].
  rewrite (unknown_tab Z.eqb Zeqb_ok [[3; 5; 9]; [-1; 0]]%Z 2 2 (fun i j => nth j (nth i [[9; -1]; [3; 0]]%Z []) 0%Z)) by auto.
  intros (i & j & Hi & Hj & E). destruct i as [|[|i]]; [| |lia]; (destruct j as [|[|j]]; [| |lia]); discriminate.
Qed.

(** C34.  handle_unknown='error', any number of columns: an unknown value
    anywhere raises ValueError. *)
Theorem C34_error : forall (m : libm) {V} (veq : V -> V -> bool) (e : encoder V) (M : list (list V)) r c,
  (forall a b, veq a b = true <-> a = b) -> Forall (@NoDup V) (en_cats e) ->
  en_unknown e = Some (lit "error") ->
  rect M r c -> 1 <= r -> 1 <= c -> c = length (en_cats e) -> unknown_cell (en_cats e) M ->
  onehot_transform (A:=F64 m) veq e (ll M) = Err ValueError.
Proof.
  intros m V veq e M r c VE ND HU RM Hr Hc Hw NU. destruct (rect_tab M r c RM Hr Hc) as [x ->].
  apply (onehot_err veq VE e ND (lit "error") r c); auto. apply (unknown_tab veq VE); auto.
Qed.
Print Assumptions C34_error.

(** handle_unknown='ignore', one or two columns: the encoding is the one-hot
    encoding of the known values; since an unknown value has no code it
    contributes no 1, so its block is zero, and the other cells of the row and
    the other rows are what they are without it. *)
Theorem C34_ignore_partial : forall (m : libm) {V} (veq : V -> V -> bool) (e : encoder V) sp (M : list (list V)) r c,
  (forall a b, veq a b = true <-> a = b) -> Forall (@NoDup V) (en_cats e) -> Forall (fun ct => ct <> []) (en_cats e) ->
  en_unknown e = Some (lit "ignore") -> en_sparse e = Some sp ->
  rect M r c -> 1 <= r -> 1 <= c <= 2 -> c = length (en_cats e) ->
  exists D, Forall2 (onehot_row (A:=F64 m) (en_cats e)) M D /\
    (if sp then exists rows, onehot_transform veq e (ll M) = Ok (Sp rows (Some (Z.of_nat (list_sum (map (@length V) (en_cats e))))) (en_dtype e)) /\ Forall2 stores rows D
     else onehot_transform veq e (ll M) = Ok (ll D)).
Proof.
  intros m V veq e sp M r c VE ND NE HU HS RM Hr Hc Hw. destruct (rect_tab M r c RM Hr ltac:(lia)) as [x ->].
  pose proof (onehot_ok (A:=F64 m) veq VE e ND (conv_one m _) (lit "ignore") sp r c x Hr ltac:(lia) Hw HU HS (or_intror (conj eq_refl NE))) as Q.
  destruct (onehot_correct (A:=F64 m) veq VE e ND x r c Hw) as [C1 C2]; [intros i Hi; apply (offs_block e ND); lia|].
  eexists. split; [exact C1|]. rewrite Q. unfold oh_out. destruct sp; auto. eexists. split; [reflexivity|]. apply C2. reflexivity.
Qed.
Print Assumptions C34_ignore_partial.

(** The block of an unknown value in a one-hot row is zero. *)
Theorem C34_block_zero : forall (A : arith) {V} (cats : list (list V)) row (out : list A) j v p x,
  onehot_row cats row out -> length row = length cats -> nth_error row j = Some v -> (forall k, ~ has_code cats j v k) ->
  block cats j <= p < block cats (S j) -> nth_error out p = Some x -> x = zero.
Proof.
  intros A V cats row out j v p x [_ H] LR Hv NK Hp Hx. apply (proj2 (H p x Hx)). intros j' v' k Hv' Hc E.
  assert (Hk : block cats j' + k < block cats (S j')).
  { destruct Hc as (ct & Ec & Ek). apply nth_error_lt in Ek. unfold block. clear - Ec Ek. revert j' Ec. induction cats as [|c0 l IH]; intros [|j'] Ec; try discriminate; simpl in *.
    - injection Ec as ->. lia.
    - specialize (IH j' Ec). lia. }
  assert (MONO : forall a b, a <= b -> block cats a <= block cats b).
  { intros a b Hab. unfold block. clear - Hab. revert cats b Hab. induction a as [|a IH]; intros [|c0 l] [|b] Hab; simpl; try lia. specialize (IH l b ltac:(lia)). lia. }
  destruct (Nat.lt_trichotomy j' j) as [L|[->|L]].
  - specialize (MONO (S j') j L). lia.
  - rewrite Hv in Hv'. injection Hv' as <-. eapply NK; eauto.
  - specialize (MONO (S j) j' L). lia.
Qed.
Print Assumptions C34_block_zero.

(** Any number of columns: the cells the code stores in a row are exactly the
    known values of that row, each with value 1, at the offset the code uses.
    So an unknown value stores nothing, and what is stored for the others
    depends on neither the unknown value nor the other rows. *)
Theorem C34_stored : forall (m : libm) {V} (veq : V -> V -> bool) (e : encoder V) (M : list (list V)) r c,
  (forall a b, veq a b = true <-> a = b) -> Forall (@NoDup V) (en_cats e) -> Forall (fun ct => ct <> []) (en_cats e) ->
  en_unknown e = Some (lit "ignore") -> en_sparse e = Some true ->
  rect M r c -> 1 <= r -> 1 <= c -> c = length (en_cats e) ->
  exists rows, onehot_transform (A:=F64 m) veq e (ll M) = Ok (Sp rows (Some (Z.of_nat (list_sum (map (@length V) (en_cats e))))) (en_dtype e)) /\
    Forall2 (fun row d => NoDup (map fst d) /\ forall p w, In (p, w) d <-> w = one /\ exists j v k, nth_error row j = Some v /\ has_code (en_cats e) j v k /\
                p = Z.of_nat (nth j (0 :: map (@length V) (en_cats e)) 0 + k)) M rows.
Proof.
  intros m V veq e M r c VE ND NE HU HS RM Hr Hc Hw. destruct (rect_tab M r c RM Hr Hc) as [x ->].
  pose proof (onehot_ok (A:=F64 m) veq VE e ND (conv_one m _) (lit "ignore") true r c x Hr ltac:(lia) Hw HU HS (or_intror (conj eq_refl NE))) as Q.
  unfold oh_out in Q. eexists. split; [exact Q|]. apply Forall2_nth_error. split; [unfold oh_rows, tab; rewrite !map_length; auto|].
  intros i row d Hrow Hd. assert (Li : i < r) by (pose proof (nth_error_lt _ _ _ Hd) as Z; unfold oh_rows in Z; rewrite map_length, seq_length in Z; auto).
  rewrite tab_nth in Hrow by auto. injection Hrow as <-. unfold oh_rows in Hd. rewrite seq_nth_map in Hd by auto. injection Hd as <-.
  split; [apply (NoDup_dict_of Z.eqb Zeqb_ok)|]. intros p w. rewrite (oh_in veq VE e ND x r c i p w Li Hw). split; (intros [Ew H]; split; [exact Ew|]).
  - destruct H as (j & k & Hj & Hk & Ep). exists j, (x i j), k. split; [apply seq_nth_map; auto|]. auto.
  - destruct H as (j & v & k & Hv & Hk & Ep). assert (Lj : j < c) by (pose proof (nth_error_lt _ _ _ Hv) as Z; rewrite map_length, seq_length in Z; auto).
    rewrite seq_nth_map in Hv by auto. injection Hv as <-. exists j, k. auto.
Qed.
Print Assumptions C34_stored.

Example C34_ex : forall m : libm,
  match onehot_transform (A:=F64 m) Z.eqb (ex_enc true "ignore" [[3; 5; 9]; [-1; 0]]%Z) (ll [[9; 7]; [3; 0]]%Z) with
    | Ok (Sp rows sz _) => Some (map (map fst) rows, sz) | _ => None end = Some ([[2]; [0; 4]]%Z, Some 5%Z) /\
  onehot_transform (A:=F64 m) Z.eqb (ex_enc true "error" [[3; 5; 9]; [-1; 0]]%Z) (ll [[9; 7]; [3; 0]]%Z) = Err ValueError.
Proof. intros m. split; vm_compute; reflexivity. Qed.
