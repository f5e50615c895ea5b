(** Encoders. *)
From Coq Require Import String Reals Lia Lra.
From Flocq Require Import Core BinarySingleNaN.
From Verif Require Import Model.Py Model.Arith Model.F64 Model.XR Model.Utils Model.Base Model.Encoders.
From Verif Require Import Spec.Matrix Spec.Encode.
From Verif Require Import Proofs.Lib Proofs.Laws Proofs.Round Proofs.Arrays.
Local Open Scope nat_scope.

(** The n x m matrix of the values [f i j]. *)
Definition tab {T} (n m : nat) (f : nat -> nat -> T) : list (list T) := map (fun i => map (f i) (seq 0 m)) (seq 0 n).
Lemma tab_rect : forall {T} n m (f : nat -> nat -> T), rect (tab n m f) n m.
Proof. intros. split; [unfold tab; rewrite map_length, seq_length; auto|]. apply Forall_map, Forall_forall. intros. rewrite map_length, seq_length. auto. Qed.
Lemma tab_nth : forall {T} n m (f : nat -> nat -> T) i, i < n -> nth_error (tab n m f) i = Some (map (f i) (seq 0 m)).
Proof. intros T n m f i H. unfold tab. rewrite nth_error_map', nth_error_seq. destruct (Nat.ltb_spec i n); [auto|lia]. Qed.
Lemma seq_nth_map : forall {T} (g : nat -> T) m j, j < m -> nth_error (map g (seq 0 m)) j = Some (g j).
Proof. intros T g m j H. rewrite nth_error_map', nth_error_seq. destruct (Nat.ltb_spec j m); [auto|lia]. Qed.
Lemma tab_cell : forall {T} n m (f : nat -> nat -> T) i j, i < n -> j < m -> cell (tab n m f) i j = Some (f i j).
Proof. intros T n m f i j Hi Hj. unfold cell. rewrite tab_nth by auto. apply seq_nth_map; auto. Qed.
Lemma tab_ext : forall {T} n m (f g : nat -> nat -> T), (forall i j, i < n -> j < m -> f i j = g i j) -> tab n m f = tab n m g.
Proof. intros T n m f g H. unfold tab. apply map_ext_in. intros i Hi. apply in_seq in Hi. apply map_ext_in. intros j Hj. apply in_seq in Hj. apply H; lia. Qed.
Lemma tab_of : forall {T} (d : T) (M : list (list T)) n m, rect M n m -> M = tab n m (fun i j => nth j (nth i M []) d).
Proof.
  intros T d M n m [LM RM]. apply list_eq_nth. intro i. destruct (Nat.lt_ge_cases i n).
  - rewrite tab_nth by auto. destruct (nth_error M i) as [row|] eqn:E; [|apply nth_error_None in E; lia]. f_equal.
    rewrite (nth_error_nth _ _ _ E). rewrite Forall_forall in RM. pose proof (RM row (nth_error_In _ _ E)) as Lr. apply list_eq_nth. intro j.
    rewrite nth_error_map', nth_error_seq. destruct (Nat.ltb_spec j m); [simpl; apply nth_error_nth'; lia|apply nth_error_None; lia].
  - replace (nth_error M i) with (@None (list T)) by (symmetry; apply nth_error_None; lia). symmetry. apply nth_error_None. unfold tab. rewrite map_length, seq_length. auto.
Qed.
Lemma tab_rep : forall {T} n m (x : T), rep (rep x m) n = tab n m (fun _ _ => x).
Proof.
  intros T n m x. assert (R : forall k s, rep x k = map (fun _ => x) (seq s k)) by (induction k; intro s; simpl; auto; f_equal; auto).
  unfold tab, rep at 1. rewrite <- (R m 0). generalize 0. induction n; intro s; simpl; auto. f_equal. auto.
Qed.
Lemma mapM_seq_tab : forall {T} (f : nat -> res T) (g : nat -> T) n, (forall i, i < n -> f i = Ok (g i)) -> mapM f (range n) = Ok (map g (seq 0 n)).
Proof. intros T f g n H. apply mapM_pure. intros i Hi. apply in_seq in Hi. apply H. lia. Qed.
Lemma lnth_map_seq : forall {T} (g : nat -> T) n i, i < n -> lnth (map g (seq 0 n)) i = Ok (g i).
Proof. intros T g n i H. unfold lnth. rewrite seq_nth_map; auto. Qed.

Lemma least_bad : forall (P : nat -> bool) j, P j = false -> exists i, i <= j /\ P i = false /\ forall k, k < i -> P k = true.
Proof.
  intros P j. induction (lt_wf j) as [j _ IH]. intro H. destruct (forallb P (seq 0 j)) eqn:E.
  - exists j. split; auto. split; auto. intros k Hk. rewrite forallb_forall in E. apply E. apply in_seq. lia.
  - assert (X : exists k, k < j /\ P k = false).
    { clear IH H. induction j as [|j IH]; [discriminate|]. rewrite seq_S, forallb_app in E. simpl in E. apply andb_false_iff in E. destruct E as [E|E].
      - destruct (IH E) as (k & Hk & Q). exists k. split; [lia|auto].
      - exists j. rewrite andb_true_r in E. auto. }
    destruct X as (k & Hk & Q). destruct (IH k Hk Q) as (i & Hi & Qi & A). exists i. split; [lia|auto].
Qed.
Lemma forallb_false : forall {T} (P : T -> bool) l, forallb P l = false -> exists x, In x l /\ P x = false.
Proof.
  intros T P l. induction l as [|x l IH]; simpl; intro H; [discriminate|]. apply andb_false_iff in H. destruct H as [H|H]; [eauto|]. destruct (IH H) as (y & Hy & Q). eauto.
Qed.

Section Enc.
  Context {V : Type} (veq : V -> V -> bool) (veq_ok : forall a b, veq a b = true <-> a = b).

  Lemma set_column_tab : forall {T} n m (f : nat -> nat -> T) (g : nat -> T) i,
    set_column (tab n m f) (map g (seq 0 n)) i n m = Ok (tab n m (fun j idx => if idx =? i then g j else f j idx)).
  Proof.
    intros T n m f g i. unfold set_column, tab. apply (mapM_seq_tab _ (fun j => map (fun idx => if idx =? i then g j else f j idx) (seq 0 m))). intros j Hj.
    apply mapM_seq_tab. intros idx Hi. destruct (idx =? i); [apply lnth_map_seq; auto|]. rewrite lnth_map_seq by auto. cbn [bind]. apply lnth_map_seq; auto.
  Qed.
  Lemma check_X_tab : forall n m (x : nat -> nat -> V), 1 <= n ->
    check_X (ll (tab n m x)) = Ok (tab m n (fun j i => x i j), n, m).
  Proof.
    intros n m x Hn. unfold check_X. unfold ll at 1. unfold tab at 1. destruct n as [|n]; [lia|]. cbn [seq map check_array bind].
    unfold shape. cbn [items bind length]. rewrite !map_length, !seq_length, Nat2Z.id. cbn [bind]. rewrite Nat2Z.id.
    change (Ls (map (x 0) (seq 0 m)) :: map Ls (map (fun i => map (x i) (seq 0 m)) (seq 1 n))) with (map Ls (tab (S n) m x)).
    replace (mapM _ (range m)) with (Ok (tab m (S n) (fun j i => x i j))); auto. symmetry.
    unfold tab at 2. apply (mapM_seq_tab _ (fun j => map (fun i => x i j) (seq 0 (S n)))). intros j Hj.
    rewrite mapM_map. unfold tab. rewrite mapM_map. apply mapM_pure. intros i _. cbn [item_get]. rewrite lget_nat. apply lnth_map_seq; auto.
  Qed.

  Definition known (c : list V) (v : V) : bool := mem veq v c.
  Lemma check_unknown_ok : forall vals c, check_unknown veq vals c = map (known c) vals.
  Proof.
    intros vals c. unfold check_unknown. destruct (filter _ vals) as [|y l] eqn:E; auto.
    assert (H : forall v, In v vals -> known c v = true).
    { intros v Hv. destruct (known c v) eqn:Q; auto. assert (I : In v (filter (fun v => negb (mem veq v c)) vals)) by (apply filter_In; split; auto; unfold known in Q; rewrite Q; auto). rewrite E in I. destruct I. }
    clear E. induction vals as [|v vals IH]; auto. cbn [length rep repeat map]. rewrite (H v) by (left; auto). f_equal. apply IH. intros w Hw. apply H. right. auto.
  Qed.
  (** Code of a value: its index, 0 when it has none. *)
  Definition code (c : list V) (v : V) : nat := match index_of veq v c with Some k => k | None => 0 end.
  Lemma code_known : forall c v, known c v = true -> nth_error c (code c v) = Some v.
  Proof.
    intros c v H. apply (mem_in veq veq_ok) in H. unfold code. destruct (index_of veq v c) as [k|] eqn:E.
    - apply index_of_some in E. destruct E as (x & Hx & Ex & _). apply veq_ok in Ex. congruence.
    - exfalso. rewrite index_of_none in E. specialize (E v H). rewrite (proj2 (veq_ok v v) eq_refl) in E. discriminate.
  Qed.
  Lemma code_unique : forall c v k, NoDup c -> nth_error c k = Some v -> code c v = k.
  Proof.
    intros c v k ND H. assert (K : known c v = true) by (apply (mem_in veq veq_ok); eapply nth_error_In; eauto). pose proof (code_known c v K) as C.
    apply (proj1 (NoDup_nth_error c) ND); [|congruence]. apply nth_error_Some. congruence.
  Qed.
  Lemma table_lookup : forall c v k, NoDup c -> nth_error c k = Some v -> dlookup veq v (dict_of veq (combine c (range (length c)))) = Some k.
  Proof.
    intros c v k ND H. assert (MF : map fst (combine c (range (length c))) = c).
    { unfold range. generalize 0. clear. induction c as [|x c IH]; intro s; simpl; auto. f_equal. apply IH. }
    rewrite dict_of_nodup by (auto; rewrite MF; auto). apply dlookup_nodup; auto; [unfold dkeys; rewrite MF; auto|].
    apply nth_error_In with k. rewrite nth_error_combine, H. unfold range. rewrite nth_error_seq. assert (k < length c) by (apply nth_error_Some; congruence).
    destruct (Nat.ltb_spec k (length c)); [auto|lia].
  Qed.
  Lemma encode_ok : forall c vals, NoDup c -> (forall v, In v vals -> known c v = true) -> encode veq vals c = Ok (map (code c) vals).
  Proof.
    intros c vals ND H. unfold encode. apply mapM_pure. intros v Hv. rewrite (table_lookup c v (code c v) ND (code_known c v (H v Hv))). auto.
  Qed.

  (** The value column j uses for encoding: an unknown value is replaced by the
      first category. *)
  Definition cj (cats : list (list V)) j := nth j cats [].
  Definition codes (cats : list (list V)) (x : nat -> nat -> V) (k : nat) : nat -> nat -> nat :=
    fun i j => if j <? k then (if known (cj cats j) (x i j) then code (cj cats j) (x i j) else 0) else 0.
  Definition masks (cats : list (list V)) (x : nat -> nat -> V) (k : nat) : nat -> nat -> bool :=
    fun i j => if j <? k then known (cj cats j) (x i j) else true.

  Lemma foldM_seq : forall {S} (f : S -> nat -> res S) (st : nat -> S) n k, (forall i, k <= i < k + n -> f (st i) i = Ok (st (i + 1))) ->
    foldM f (seq k n) (st k) = Ok (st (k + n)).
  Proof.
    intros S f st n. induction n as [|n IH]; intros k H; simpl; [rewrite Nat.add_0_r; auto|]. rewrite (H k) by lia. cbn [bind]. rewrite Nat.add_1_r. rewrite IH; [f_equal; f_equal; lia|]. intros i Hi. apply H. lia.
  Qed.

  Variables (e : encoder V).
  Let cats := en_cats e.
  Hypothesis ND : Forall (@NoDup V) cats.

  Definition body (unknown : pystr) (cols : list (list V)) n m :=
    (fun st i =>
             let '(xint, mask) := st in
             xi <- lnth cols i ;;
             c <- lnth (en_cats e) i ;;
             let valid := check_unknown veq xi c in
             '(xi', mask') <-
               (if forallb (fun b => b) valid then Ok (xi, mask)
                else if str_eqb unknown (lit "error") then Err ValueError
                else
                  mk <- set_column mask valid i n m ;;
                  x' <- mapM (fun idx => b <- lnth valid idx ;;
                                         if b : bool then lnth xi idx else lnth c 0)
                             (range (List.length xi)) ;;
                  Ok (x', mk)) ;;
             enc <- encode veq xi' c ;;
             xint' <- set_column xint enc i n m ;;
             Ok (xint', mask')).
  Lemma enc_body : forall M unknown, enc_transform veq e (ll M) unknown =
    ('(cols, n, m) <- check_X (ll M) ;; guard (m =? List.length (en_cats e))%nat ValueError ;; foldM (body unknown cols n m) (range m) (rep (rep 0 m) n, rep (rep true m) n)).
  Proof. reflexivity. Qed.

  Lemma cats_nth : forall i, i < length cats -> lnth cats i = Ok (cj cats i) /\ NoDup (cj cats i) /\ nth_error cats i = Some (cj cats i).
  Proof.
    intros i H. assert (E : nth_error cats i = Some (cj cats i)) by (apply nth_error_nth'; auto). split; [apply lnth_ok; auto|]. split; auto.
    rewrite Forall_forall in ND. apply ND. eapply nth_error_In; eauto.
  Qed.
  Lemma body_step : forall unknown n m x i, i < m -> m = length cats ->
    (forall k, k < n -> known (cj cats i) (x k i) = true) \/ (str_eqb unknown (lit "error") = false /\ cj cats i <> []) ->
    body unknown (tab m n (fun j i => x i j)) n m (tab n m (codes cats x i), tab n m (masks cats x i)) i =
    Ok (tab n m (codes cats x (i + 1)), tab n m (masks cats x (i + 1))).
  Proof.
    intros unknown n m x i Hi Hm HK. unfold body. destruct (cats_nth i) as (Ec & Nc & _); [lia|].
    assert (Ex : lnth (tab m n (fun j i0 => x i0 j)) i = Ok (map (fun k => x k i) (seq 0 n))) by exact (lnth_map_seq (fun j => map (fun k => x k j) (seq 0 n)) m i Hi).
    rewrite Ex. cbn [bind]. fold cats. rewrite Ec. cbn [bind]. rewrite check_unknown_ok, map_map. set (c := cj cats i) in *.
    assert (CE : forall j k, (if k =? i then (if known c (x j i) then code c (x j i) else 0) else codes cats x i j k) = codes cats x (i + 1) j k).
    { intros j k. unfold codes. destruct (Nat.eqb_spec k i) as [->|N]; [replace (i <? i + 1) with true by (symmetry; apply Nat.ltb_lt; lia); auto|].
      destruct (Nat.ltb_spec k i), (Nat.ltb_spec k (i + 1)); auto; lia. }
    assert (ME : forall j k, (if k =? i then known c (x j i) else masks cats x i j k) = masks cats x (i + 1) j k).
    { intros j k. unfold masks. destruct (Nat.eqb_spec k i) as [->|N]; [replace (i <? i + 1) with true by (symmetry; apply Nat.ltb_lt; lia); auto|].
      destruct (Nat.ltb_spec k i), (Nat.ltb_spec k (i + 1)); auto; lia. }
    destruct (forallb (fun b => b) (map (fun k => known c (x k i)) (seq 0 n))) eqn:FB.
    - assert (K : forall k, k < n -> known c (x k i) = true).
      { intros k Hk. rewrite forallb_forall in FB. apply FB. apply in_map_iff. exists k. split; auto. apply in_seq. lia. }
      cbn [bind]. rewrite encode_ok by (auto; intros v Hv; apply in_map_iff in Hv; destruct Hv as (k & <- & Hk); apply in_seq in Hk; apply K; lia). cbn [bind]. rewrite map_map.
      rewrite set_column_tab. cbn [bind]. f_equal. f_equal.
      + apply tab_ext. intros j k Hj Hk. rewrite <- CE. rewrite K by auto. auto.
      + apply tab_ext. intros j k Hj Hk. rewrite <- ME. destruct (Nat.eqb_spec k i) as [->|N]; auto. rewrite K by auto. unfold masks. rewrite Nat.ltb_irrefl. auto.
    - destruct HK as [K|[U NE]].
      { exfalso. assert (forallb (fun b => b) (map (fun k => known c (x k i)) (seq 0 n)) = true); [|congruence]. apply forallb_forall. intros b Hb. apply in_map_iff in Hb. destruct Hb as (k & <- & Hk). apply in_seq in Hk. apply K. lia. }
      rewrite U. rewrite set_column_tab. cbn [bind]. rewrite map_length, seq_length. clearbody c. destruct c as [|c0 c1]; [congruence|].
      rewrite (mapM_seq_tab _ (fun k => if known (c0 :: c1) (x k i) then x k i else c0)).
      2:{ intros k Hk. rewrite lnth_map_seq by auto. cbn [bind]. destruct (known (c0 :: c1) (x k i)); [exact (lnth_map_seq (fun k => x k i) n k Hk)|reflexivity]. }
      cbn [bind]. assert (K0 : known (c0 :: c1) c0 = true) by (apply (mem_in veq veq_ok); left; auto).
      rewrite encode_ok by (auto; intros v Hv; apply in_map_iff in Hv; destruct Hv as (k & <- & Hk); destruct (known (c0 :: c1) (x k i)) eqn:Q; auto). cbn [bind]. rewrite map_map.
      rewrite set_column_tab. cbn [bind]. f_equal. f_equal.
      + apply tab_ext. intros j k Hj Hk. rewrite <- CE. destruct (k =? i); auto. destruct (known (c0 :: c1) (x j i)); auto. apply code_unique; auto.
      + apply tab_ext. intros j k Hj Hk. rewrite <- ME. auto.
  Qed.
  Lemma body_err : forall unknown n m x i, i < m -> m = length cats -> str_eqb unknown (lit "error") = true ->
    (exists k, k < n /\ known (cj cats i) (x k i) = false) -> forall st, body unknown (tab m n (fun j i => x i j)) n m st i = Err ValueError.
  Proof.
    intros unknown n m x i Hi Hm U (k & Hk & Q) [xi mk]. unfold body. destruct (cats_nth i) as (Ec & Nc & _); [lia|].
    assert (Ex : lnth (tab m n (fun j i0 => x i0 j)) i = Ok (map (fun k => x k i) (seq 0 n))) by exact (lnth_map_seq (fun j => map (fun k => x k j) (seq 0 n)) m i Hi).
    rewrite Ex. cbn [bind]. fold cats. rewrite Ec. cbn [bind]. rewrite check_unknown_ok, map_map.
    replace (forallb _ _) with false; [rewrite U; auto|]. symmetry. destruct (forallb _ _) eqn:FB; auto. rewrite forallb_forall in FB.
    rewrite <- Q. symmetry. apply FB. apply in_map_iff. exists k. split; auto. apply in_seq. lia.
  Qed.

  Lemma enc_ok : forall unknown n m x, 1 <= n -> m = length cats ->
    (forall i j, i < n -> j < m -> known (cj cats j) (x i j) = true) \/ (str_eqb unknown (lit "error") = false /\ Forall (fun c => c <> []) cats) ->
    enc_transform veq e (ll (tab n m x)) unknown = Ok (tab n m (codes cats x m), tab n m (masks cats x m)).
  Proof.
    intros unknown n m x Hn Hm HK. rewrite enc_body, check_X_tab by auto. cbn [bind]. fold cats. rewrite <- Hm, Nat.eqb_refl. cbn [guard bind].
    rewrite !tab_rep. apply (foldM_seq _ (fun k => (tab n m (codes cats x k), tab n m (masks cats x k))) m 0).
    intros i Hi. apply body_step; auto; [lia|]. destruct HK as [K|[U NE]]; [left; intros; apply K; lia|right; split; auto].
    destruct (cats_nth i) as (_ & _ & E); [lia|]. rewrite Forall_forall in NE. apply NE. eapply nth_error_In; eauto.
  Qed.
  Lemma enc_err : forall unknown n m x, 1 <= n -> m = length cats -> str_eqb unknown (lit "error") = true ->
    (exists i j, i < n /\ j < m /\ known (cj cats j) (x i j) = false) -> enc_transform veq e (ll (tab n m x)) unknown = Err ValueError.
  Proof.
    intros unknown n m x Hn Hm U (i0 & j0 & Hi & Hj & Q). rewrite enc_body, check_X_tab by auto. cbn [bind]. fold cats. rewrite <- Hm, Nat.eqb_refl. cbn [guard bind].
    (* first column with an unknown value *)
    assert (G : exists j, j < m /\ (exists k, k < n /\ known (cj cats j) (x k j) = false) /\ forall j', j' < j -> forall k, k < n -> known (cj cats j') (x k j') = true).
    { destruct (least_bad (fun j => forallb (fun k => known (cj cats j) (x k j)) (seq 0 n)) j0) as (j & Hj' & B & A).
      - destruct (forallb _ _) eqn:E; auto. rewrite forallb_forall in E. rewrite E in Q by (apply in_seq; lia). discriminate.
      - exists j. split; [lia|]. split.
        + apply forallb_false in B. destruct B as (k & Hk & B). apply in_seq in Hk. exists k. split; [lia|auto].
        + intros j' Hj1 k Hk. specialize (A j' Hj1). rewrite forallb_forall in A. apply A. apply in_seq. lia. }
    destruct G as (j & Hj' & HB & HA). unfold range. replace (seq 0 m) with (seq 0 j ++ seq j (S (m - S j))) by (rewrite <- (seq_app j); f_equal; lia).
    rewrite foldM_app. rewrite !tab_rep.
    rewrite (foldM_seq _ (fun k => (tab n m (codes cats x k), tab n m (masks cats x k))) j 0).
    - cbn [bind seq foldM]. rewrite body_err; auto.
    - intros i Hi'. apply body_step; auto; [lia|]. left. intros k Hk. apply HA; auto; lia.
  Qed.
End Enc.

Section OneHot.
  Context {A : arith} {V : Type} (veq : V -> V -> bool) (veq_ok : forall a b, veq a b = true <-> a = b).
  Variables (e : encoder V).
  Let cats := en_cats e.
  Hypothesis ND : Forall (@NoDup V) cats.
  Hypothesis ONE : conv (en_dtype e) (one : A) = Ok one.

  Definition offs (i : nat) : nat := nth i (0 :: map (@length V) cats) 0.
  Definition total : nat := list_sum (map (@length V) cats).
  Definition oh_cells (x : nat -> nat -> V) m (j : nat) : list (Z * A) :=
    concat (map (fun i => if masks veq cats x m j i then [(Z.of_nat (offs i + codes veq cats x m j i), one : A)] else []) (seq 0 m)).
  Definition oh_rows x n m : list (dict Z A) := map (fun j => dict_of Z.eqb (oh_cells x m j)) (seq 0 n).

  Lemma accumu_last : forall l t, l <> [] -> lget (accumu_from t l) (-1) = Ok (t + fold_right Z.add 0 l)%Z.
  Proof.
    assert (G : forall l t x, exists pre, accumu_from t (x :: l) = pre ++ [(t + fold_right Z.add 0 (x :: l))%Z]).
    { induction l as [|y l IH]; intros t x.
      - exists []. simpl. f_equal. lia.
      - destruct (IH (t + x)%Z y) as [pre E]. exists ((t + x)%Z :: pre). change (accumu_from t (x :: y :: l)) with ((t + x)%Z :: accumu_from (t + x) (y :: l)). rewrite E. simpl. f_equal. f_equal. f_equal. lia. }
    intros [|x l] t H; [congruence|]. destruct (G l t x) as [pre ->]. apply lget_neg1.
  Qed.
  Lemma size_total : lget (accumu (0%Z :: map (fun c => Z.of_nat (length c)) cats)) (-1) = Ok (Z.of_nat total).
  Proof.
    unfold accumu. rewrite accumu_last by discriminate. f_equal. unfold total. simpl. clear ND. induction cats as [|c l IH]; auto. simpl in *. lia.
  Qed.
  Lemma offs_lnth : forall i, i <= length cats -> lnth (0%Z :: map (fun c => Z.of_nat (length c)) cats) i = Ok (Z.of_nat (offs i)).
  Proof.
    intros i Hi. unfold offs. destruct i as [|i]; auto. unfold lnth. cbn [nth_error]. rewrite nth_error_map'.
    destruct (nth_error cats i) as [c|] eqn:E; [|apply nth_error_None in E].
    - cbn [option_map nth]. f_equal. f_equal. symmetry. apply nth_error_nth. rewrite nth_error_map', E. auto.
    - (* i = length cats is out of the list: excluded below *) exfalso. assert (S i <= length cats) by auto. lia.
  Qed.

  Definition oh_out (rows : list (dict Z A)) (sp : bool) : arr A :=
    if sp then Sp rows (Some (Z.of_nat total)) (en_dtype e)
    else ll (map (fun d => map (fun p => dget_default Z.eqb d p zero) (zrange 0 (Z.of_nat total))) rows).
  Lemma onehot_ok : forall u sp n m x, 1 <= n -> 1 <= m -> m = length cats -> en_unknown e = Some u -> en_sparse e = Some sp ->
    (forall i j, i < n -> j < m -> known veq (cj cats j) (x i j) = true) \/ (str_eqb u (lit "error") = false /\ Forall (fun c => c <> []) cats) ->
    onehot_transform veq e (ll (tab n m x)) = Ok (oh_out (oh_rows x n m) sp).
  Proof.
    intros u sp n m x Hn Hm1 Hm Hu Hs HK. unfold onehot_transform. rewrite Hu. cbn [bind]. rewrite (enc_ok veq veq_ok e ND u n m x Hn Hm HK). cbn [bind]. fold cats.
    assert (X0 : lnth (tab n m (codes veq cats x m)) 0 = Ok (map (codes veq cats x m 0) (seq 0 m))) by exact (lnth_map_seq (fun i => map (codes veq cats x m i) (seq 0 m)) n 0 Hn).
    rewrite X0. cbn [bind]. rewrite size_total. cbn [bind].
    replace (length (tab n m (codes veq cats x m))) with n by (symmetry; apply (tab_rect n m (codes veq cats x m))). rewrite map_length, seq_length.
    rewrite (mapM_seq_tab _ (fun j => dict_of Z.eqb (oh_cells x m j))).
    - cbn [bind]. fold (oh_rows x n m). assert (NR : oh_rows x n m <> []) by (unfold oh_rows; destruct n; [lia|discriminate]).
      replace (sparse_list (oh_rows x n m) (Some (Z.of_nat total)) (en_dtype e)) with (Ok (Sp (oh_rows x n m) (Some (Z.of_nat total)) (en_dtype e))) by (destruct (oh_rows x n m); [congruence|auto]).
      cbn [bind]. rewrite Hs. cbn [bind]. destruct sp; auto. unfold todense, dzero. rewrite (mapM_Ok (fun row => map (fun i => dget_default Z.eqb row i zero) (zrange 0 (Z.of_nat total)))). reflexivity.
    - intros j Hj. rewrite (mapM_seq_tab _ (fun i => if masks veq cats x m j i then [(Z.of_nat (offs i + codes veq cats x m j i), one : A)] else [])); [reflexivity|].
      intros i Hi. assert (Mj : lnth (tab n m (masks veq cats x m)) j = Ok (map (masks veq cats x m j) (seq 0 m))) by exact (lnth_map_seq (fun i => map (masks veq cats x m i) (seq 0 m)) n j Hj).
      rewrite Mj. cbn [bind]. rewrite (lnth_map_seq (masks veq cats x m j) m i Hi). cbn [bind]. destruct (masks veq cats x m j i); auto.
      rewrite offs_lnth by lia. cbn [bind].
      assert (Cj : lnth (tab n m (codes veq cats x m)) j = Ok (map (codes veq cats x m j) (seq 0 m))) by exact (lnth_map_seq (fun i => map (codes veq cats x m i) (seq 0 m)) n j Hj).
      rewrite Cj. cbn [bind]. rewrite (lnth_map_seq (codes veq cats x m j) m i Hi). cbn [bind]. rewrite ONE. cbn [bind]. repeat f_equal. lia.
  Qed.
  Lemma onehot_err : forall u n m x, 1 <= n -> m = length cats -> en_unknown e = Some u -> str_eqb u (lit "error") = true ->
    (exists i j, i < n /\ j < m /\ known veq (cj cats j) (x i j) = false) -> onehot_transform (A:=A) veq e (ll (tab n m x)) = Err ValueError.
  Proof. intros u n m x Hn Hm Hu HE HB. unfold onehot_transform. rewrite Hu. cbn [bind]. rewrite (enc_err veq veq_ok e ND u n m x Hn Hm HE HB). auto. Qed.

  (** Stored cells of a row. *)
  Lemma oh_in : forall x n m j p w, j < n -> m = length cats ->
    (In (p, w) (dict_of Z.eqb (oh_cells x m j)) <-> w = one /\ exists i k, i < m /\ has_code cats i (x j i) k /\ p = Z.of_nat (offs i + k)).
  Proof.
    intros x n m j p w Hj Hm.
    assert (CI : forall q v, In (q, v) (oh_cells x m j) <-> v = one /\ exists i k, i < m /\ has_code cats i (x j i) k /\ q = Z.of_nat (offs i + k)).
    { intros q v. unfold oh_cells. rewrite in_concat. split.
      - intros (l & Hl & Hin). apply in_map_iff in Hl. destruct Hl as (i & <- & Hi). apply in_seq in Hi.
        destruct (masks veq cats x m j i) eqn:E; [|destruct Hin]. destruct Hin as [Hin|[]]. injection Hin as <- <-. split; auto.
        unfold masks in E. replace (i <? m) with true in E by (symmetry; apply Nat.ltb_lt; lia).
        exists i, (code veq (cj cats i) (x j i)). split; [lia|]. split.
        + destruct (cats_nth e ND i) as (_ & _ & En); [fold cats; lia|]. exists (cj cats i). split; auto. apply (code_known veq veq_ok); auto.
        + unfold codes. replace (i <? m) with true by (symmetry; apply Nat.ltb_lt; lia). rewrite E. auto.
      - intros (-> & i & k & Hi & (c & Ec & Ek) & ->). exists [(Z.of_nat (offs i + k), one : A)]. split; [|left; auto]. apply in_map_iff. exists i. split; [|apply in_seq; lia].
        assert (Ecj : cj cats i = c) by (apply nth_error_nth; auto). assert (NDc : NoDup c) by (rewrite Forall_forall in ND; apply ND; eapply nth_error_In; eauto).
        assert (K : known veq c (x j i) = true) by (apply (mem_in veq veq_ok); eapply nth_error_In; eauto).
        unfold masks, codes. replace (i <? m) with true by (symmetry; apply Nat.ltb_lt; lia). rewrite Ecj, K, (code_unique veq veq_ok c (x j i) k NDc Ek). auto. }
    rewrite <- CI. split; intro H.
    - apply (dlookup_nodup Z.eqb Zeqb_ok) in H; [|apply NoDup_dict_of; apply Zeqb_ok]. rewrite (dlookup_dict_of Z.eqb Zeqb_ok) in H. apply (dlookup_in Z.eqb Zeqb_ok) in H. apply in_rev; auto.
    - apply (dlookup_in Z.eqb Zeqb_ok). rewrite (dlookup_dict_of Z.eqb Zeqb_ok). destruct (dlookup Z.eqb p (rev (oh_cells x m j))) as [w'|] eqn:E.
      + apply (dlookup_in Z.eqb Zeqb_ok) in E. apply in_rev in E. apply CI in E. apply CI in H. destruct E as [-> _], H as [-> _]. auto.
      + apply (dlookup_none Z.eqb Zeqb_ok) in E. exfalso. apply E. unfold dkeys. apply in_map_iff. exists (p, w). split; auto. apply in_rev. rewrite rev_involutive. auto.
  Qed.

  (** With at most two columns the offsets are the block offsets. *)
  Lemma block_total : forall i k v, has_code cats i v k -> block cats i + k < total.
  Proof.
    intros i k v (c & Ec & Ek). unfold block, total. assert (k < length c) by (apply nth_error_Some; congruence). clear Ek. clear ND. revert i Ec. induction cats as [|c0 l IH]; intros [|i] Ec; try discriminate; simpl in *.
    - injection Ec as ->. lia.
    - specialize (IH i Ec). lia.
  Qed.
  Lemma onehot_correct : forall x n m, m = length cats -> (forall i, i < m -> offs i = block cats i) ->
    let D := map (fun d => map (fun p => dget_default Z.eqb d p zero) (zrange 0 (Z.of_nat total))) (oh_rows x n m) in
    Forall2 (onehot_row cats) (tab n m x) D /\ ((eqb (zero : A) zero = true) -> Forall2 stores (oh_rows x n m) D).
  Proof.
    intros x n m Hm HO D. split.
    - apply Forall2_nth_error. split; [unfold D, oh_rows, tab; rewrite !map_length; auto|]. intros j row out Hj Ho.
      assert (Lj : j < n) by (pose proof (nth_error_lt _ _ _ Hj) as Q; unfold tab in Q; rewrite map_length, seq_length in Q; auto).
      rewrite tab_nth in Hj by auto. injection Hj as <-. unfold D, oh_rows in Ho. rewrite map_map in Ho. rewrite seq_nth_map in Ho by auto. injection Ho as <-.
      split; [rewrite map_length, zrange_length; unfold total; lia|]. intros p v Hv. rewrite nth_error_map', nth_error_zrange in Hv. destruct (Z.ltb_spec (Z.of_nat p) (Z.of_nat total - 0)); [|discriminate]. cbn [option_map] in Hv. injection Hv as <-. unfold dget_default.
      set (d := dict_of Z.eqb (oh_cells x m j)). split.
      + intros (i & u & k & Hu & Hc & ->). assert (Hi : i < m) by (pose proof (nth_error_lt _ _ _ Hu) as Q; rewrite map_length, seq_length in Q; auto). rewrite seq_nth_map in Hu by auto. injection Hu as <-.
        assert (I : In (Z.of_nat (block cats i + k), one : A) d) by (apply (oh_in x n m); auto; split; auto; exists i, k; rewrite HO by auto; split; auto; split; auto; lia).
        assert (E : dlookup Z.eqb (Z.of_nat (block cats i + k)) d = Some (one : A)) by (apply (dlookup_nodup Z.eqb Zeqb_ok); auto; apply (NoDup_dict_of Z.eqb Zeqb_ok)). rewrite E. auto.
      + intros N. destruct (dlookup Z.eqb (Z.of_nat p) d) as [w|] eqn:E; auto. exfalso. apply (dlookup_in Z.eqb Zeqb_ok) in E. apply (oh_in x n m) in E; auto. destruct E as (_ & i & k & Hi & Hc & Ep).
        apply (N i (x j i) k); auto; [apply seq_nth_map; auto|]. rewrite <- HO by auto. lia.
    - intro Z0. unfold D, oh_rows. rewrite map_map. apply Forall2_nth_error. split; [rewrite !map_length; auto|]. intros j d out Hd Ho.
      assert (Lj : j < n) by (pose proof (nth_error_lt _ _ _ Hd) as Q; rewrite map_length, seq_length in Q; auto). rewrite seq_nth_map in Hd by auto. rewrite seq_nth_map in Ho by auto. injection Hd as <-. injection Ho as <-.
      set (d := dict_of Z.eqb (oh_cells x m j)). split; [apply (NoDup_dict_of Z.eqb Zeqb_ok)|]. rewrite map_length, zrange_length. split.
      + intros k Hk. apply in_map_iff in Hk. destruct Hk as ([k' w] & <- & Hk). apply (oh_in x n m) in Hk; auto. destruct Hk as (_ & i & kk & Hi & Hc & Ek). cbn [fst]. pose proof (block_total i kk _ Hc) as B. rewrite HO in Ek by auto. lia.
      + intros p v Hv. rewrite nth_error_map', nth_error_zrange in Hv. destruct (Z.ltb_spec (Z.of_nat p) (Z.of_nat total - 0)); [|discriminate]. cbn [option_map] in Hv. injection Hv as <-. unfold dget_default.
        destruct (dlookup Z.eqb (Z.of_nat p) d) as [w|] eqn:E.
        * left. exists w. split; auto. apply (dlookup_in Z.eqb Zeqb_ok); auto.
        * right. split; [apply (dlookup_none Z.eqb Zeqb_ok); auto|exact Z0].
  Qed.
  Lemma offs_block : forall i, length cats <= 2 -> i < length cats -> offs i = block cats i.
  Proof.
    intros i L Hi. unfold offs, block. destruct i as [|[|i]]; [destruct cats; auto| |lia]. destruct cats as [|c l]; [simpl in Hi; lia|]. simpl. lia.
  Qed.
End OneHot.

Lemma f_trunc : forall n, (Z.abs n <= 2 ^ 53)%Z -> f_toZ (f_ofZE n 0) = Ok n.
Proof.
  intros n H. pose proof (f_ofZ_x n H) as E. unfold f_toZ. generalize dependent (f_ofZE n 0). intros z E.
  assert (F : is_finite z = true) by (destruct z as [|[]| |]; try discriminate; auto).
  rewrite (b2x_fin z F) in E. injection E as R.
  assert (B : Btrunc z = n).
  { apply eq_IZR. rewrite (Btrunc_correct 53 1024 _ z). rewrite R. unfold round, F2R, scaled_mantissa. simpl. rewrite !Rmult_1_r, Ztrunc_IZR. auto. }
  destruct z; try discriminate; f_equal; exact B.
Qed.

Lemma rect_tab : forall {T} (M : list (list T)) n m, rect M n m -> 1 <= n -> 1 <= m -> exists x, M = tab n m x.
Proof.
  intros T M n m RM Hn Hm. destruct (rect_cell M n m 0 0 RM) as [v _]; try lia. exists (fun i j => nth j (nth i M []) v). apply tab_of; auto.
Qed.
Section Known.
  Context {V : Type} (veq : V -> V -> bool) (veq_ok : forall a b, veq a b = true <-> a = b) (cats : list (list V)).
  Lemma known_code : forall j v, j < length cats -> (known veq (cj cats j) v = true <-> exists k, has_code cats j v k).
  Proof.
    intros j v Hj. unfold known. rewrite (mem_in veq veq_ok). unfold has_code, cj. assert (E : nth_error cats j = Some (nth j cats [])) by (apply nth_error_nth'; auto). split.
    - intro H. apply In_nth_error in H. destruct H as [k Hk]. exists k, (nth j cats []). auto.
    - intros (k & c & Ec & Ek). rewrite E in Ec. injection Ec as <-. eapply nth_error_In; eauto.
  Qed.
  Lemma unknown_tab : forall n m x, m = length cats -> (unknown_cell cats (tab n m x) <-> exists i j, i < n /\ j < m /\ known veq (cj cats j) (x i j) = false).
  Proof.
    intros n m x Hm. split.
    - intros (i & j & v & Hc & Hk). destruct (cell_lt _ n m i j v (tab_rect n m x) Hc) as [Hi Hj]. rewrite tab_cell in Hc by auto. injection Hc as <-. exists i, j. split; auto. split; auto.
      destruct (known veq (cj cats j) (x i j)) eqn:E; auto. apply known_code in E; [|lia]. destruct E as [k E]. exfalso. eapply Hk; eauto.
    - intros (i & j & Hi & Hj & E). exists i, j, (x i j). split; [apply tab_cell; auto|]. intros k Hk. assert (known veq (cj cats j) (x i j) = true) by (apply known_code; [lia|eauto]). congruence.
  Qed.
  Lemma known_dec : forall n m x, (forall i j, i < n -> j < m -> known veq (cj cats j) (x i j) = true) \/ (exists i j, i < n /\ j < m /\ known veq (cj cats j) (x i j) = false).
  Proof.
    intros n m x. destruct (forallb (fun i => forallb (fun j => known veq (cj cats j) (x i j)) (seq 0 m)) (seq 0 n)) eqn:E.
    - left. intros i j Hi Hj. rewrite forallb_forall in E. specialize (E i ltac:(apply in_seq; lia)). rewrite forallb_forall in E. apply E. apply in_seq; lia.
    - right. apply forallb_false in E. destruct E as (i & Hi & E). apply forallb_false in E. destruct E as (j & Hj & E). apply in_seq in Hi, Hj. exists i, j. repeat split; auto; lia.
  Qed.
End Known.
