(** Sparse rows whose columns are stored in any order: linear scores. *)
From Coq Require Import Reals Lia Lra List Permutation.
From Flocq Require Import Core BinarySingleNaN.
From Verif Require Import Model.Py Model.Arith Model.F64 Model.XR Model.Utils Model.Base Model.Linear.
From Verif Require Import Spec.Matrix Spec.Reals Spec.Linear Spec.Rounding.
From Verif Require Import Proofs.Lib Proofs.Laws Proofs.Round Proofs.Arrays Proofs.RealLib Proofs.Linear Proofs.Scaling Proofs.SumErr Proofs.DotErr.
Import ListNotations.
Local Open Scope nat_scope.

Lemma in_numbered : forall {T} (l : list T) k j v, In (j, v) (combine (seq k (length l)) l) <-> k <= j /\ nth_error l (j - k) = Some v.
Proof.
  intros T l. induction l as [|x l IH]; intros k j v; cbn [length seq combine In].
  - split; [intros []|]. intros [_ H]. destruct (j - k); discriminate.
  - rewrite IH. split.
    + intros [E|[H1 H2]]; [injection E as <- <-; rewrite Nat.sub_diag; auto|]. split; [lia|]. replace (j - k) with (S (j - S k)) by lia. exact H2.
    + intros [H1 H2]. destruct (Nat.eq_dec j k) as [->|N]; [rewrite Nat.sub_diag in H2; injection H2 as ->; auto|]. right. split; [lia|]. replace (j - k) with (S (j - S k)) in H2 by lia. exact H2.
Qed.
Lemma NoDup_numbered : forall {T} (l : list T) k, NoDup (combine (seq k (length l)) l).
Proof.
  intros T l. induction l as [|x l IH]; intro k; cbn [length seq combine]; constructor; auto. rewrite in_numbered. lia.
Qed.
Lemma NoDup_keys : forall {K T} (d : list (K * T)), NoDup (map fst d) -> NoDup d.
Proof. intros K T d H. induction d as [|x d IH]; constructor; inversion H; subst; auto. intro I. apply H2. apply in_map. exact I. Qed.
Lemma key_fun : forall {T} (d : list (Z * T)) k v w, NoDup (map fst d) -> In (k, v) d -> In (k, w) d -> v = w.
Proof.
  intros T d k v w. induction d as [|[a x] d IH]; intros N H1 H2; [destruct H1|]. inversion N as [|? ? N1 N2]; subst. cbn [fst] in N1.
  destruct H1 as [E1|H1], H2 as [E2|H2]; try congruence; auto.
  - injection E1 as -> ->. exfalso. apply N1. apply (in_map fst) in H2. exact H2.
  - injection E2 as -> ->. exfalso. apply N1. apply (in_map fst) in H1. exact H1.
Qed.
Lemma Rsum_perm : forall l l', Permutation l l' -> Rsum l = Rsum l'.
Proof. intros l l' P. induction P; cbn; lra. Qed.
Lemma Rsum_filter : forall {T} (p : T -> bool) (g : T -> R) l, (forall x, In x l -> p x = false -> g x = 0%R) -> Rsum (map g (filter p l)) = Rsum (map g l).
Proof.
  intros T p g l H. induction l as [|x l IH]; [reflexivity|]. cbn [filter map Rsum]. pose proof (IH (fun y Hy => H y (or_intror Hy))) as E. destruct (p x) eqn:P; cbn [map Rsum]; rewrite E; [reflexivity|]. rewrite (H x (or_introl eq_refl) P). ring.
Qed.

Lemma filter_short : forall {T} (p : T -> bool) l, length (filter p l) <= length l.
Proof. intros T p l. induction l as [|x l IH]; [auto|]. cbn [filter length]. destruct (p x); cbn [length]; lia. Qed.

Section Any.
  Variable m : libm.
  Notation F := (F64 m).

  (** Summing over the stored entries is summing over the row. *)
  Lemma stored_perm : forall (d : dict Z F) (row : list F), stores d row ->
    Permutation d (map (fun p => (Z.of_nat (fst p), snd p)) (filter (fun p => if in_dec Z.eq_dec (Z.of_nat (fst p)) (map fst d) then true else false) (combine (seq 0 (length row)) row))).
  Proof.
    intros d row (N & K & V). apply NoDup_Permutation.
    - apply NoDup_keys. exact N.
    - apply FinFun.Injective_map_NoDup; [|apply NoDup_filter, NoDup_numbered]. intros [a x] [b y] E. cbn in E. injection E as E1 ->. f_equal. lia.
    - intros [k v]. rewrite in_map_iff. split.
      + intro I. pose proof (in_map fst _ _ I) as Ik. cbn [fst] in Ik. specialize (K k Ik). exists (Z.to_nat k, v). cbn [fst snd]. rewrite Z2Nat.id by lia. split; auto.
        apply filter_In. split.
        * apply in_numbered. split; [lia|]. rewrite Nat.sub_0_r. destruct (nth_error row (Z.to_nat k)) as [w|] eqn:E; [|apply nth_error_None in E; lia].
          destruct (V _ _ E) as [(w' & I' & ->)|[NI _]]; rewrite Z2Nat.id in * by lia; [|contradiction]. f_equal. apply (key_fun d k); auto.
        * cbn [fst]. rewrite Z2Nat.id by lia. destruct (in_dec Z.eq_dec k (map fst d)); auto.
      + intros ((j & w) & E & I). cbn [fst snd] in E. injection E as <- <-. apply filter_In in I. destruct I as [I Q]. cbn [fst] in Q. destruct (in_dec Z.eq_dec (Z.of_nat j) (map fst d)) as [Ij|]; [|discriminate].
        apply in_numbered in I. rewrite Nat.sub_0_r in I. destruct (V j w (proj2 I)) as [(w' & I' & ->)|[NI _]]; [exact I'|contradiction].
  Qed.
  Lemma stored_sum : forall (d : dict Z F) (row : list F) (g : nat -> F -> R), stores d row -> (forall j x, is0 x -> g j x = 0%R) ->
    Rsum (map (fun kv => g (Z.to_nat (fst kv)) (snd kv)) d) = Rsum (map (fun p => g (fst p) (snd p)) (combine (seq 0 (length row)) row)).
  Proof.
    intros d row g S G. pose proof (stored_perm d row S) as P. destruct S as (N & K & V).
    rewrite (Rsum_perm _ _ (Permutation_map (fun kv => g (Z.to_nat (fst kv)) (snd kv)) P)). rewrite map_map.
    rewrite (map_ext _ (fun p => g (fst p) (snd p))) by (intros [j x]; cbn [fst snd]; rewrite Nat2Z.id; reflexivity).
    apply Rsum_filter. intros [j x] I Q. cbn [fst snd] in *. apply in_numbered in I. rewrite Nat.sub_0_r in I. destruct (in_dec Z.eq_dec (Z.of_nat j) (map fst d)) as [|NI]; [discriminate|].
    destruct (V j x (proj2 I)) as [(w & I' & ->)|[_ Z0]]; [|apply G; exact Z0]. exfalso. apply NI. apply (in_map fst) in I'. exact I'.
  Qed.

  Definition pair_of (w : list f64) (kv : Z * f64) : f64 * f64 := (snd kv, nth (Z.to_nat (fst kv)) w (f_ofZE 0 0)).
  Lemma numbered_dot : forall (h : R -> R) (row w : list f64) (pre : list f64), length w = length row ->
    Rsum (map (fun p => h (real (snd p)) * h (real (nth (fst p) (pre ++ w) (f_ofZE 0 0))))%R (combine (seq (length pre) (length row)) row)) = Rdot (map h (reals row)) (map h (reals w)).
  Proof.
    intros h row. induction row as [|x row IH]; intros w pre L; destruct w as [|y w]; try discriminate; [reflexivity|]. cbn [length seq combine map Rsum reals Rdot fst snd].
    rewrite app_nth2, Nat.sub_diag by lia. cbn [nth]. f_equal. specialize (IH w (pre ++ [y]) ltac:(cbn in L; lia)). rewrite <- app_assoc, app_length in IH. cbn [length app] in IH. rewrite Nat.add_1_r in IH. exact IH.
  Qed.
  Lemma is0_real : forall x : F, is0 x -> real x = 0%R.
  Proof. intros x H. apply (f_is0 m) in H. apply fin_of_b2x in H. apply H. Qed.

  Lemma any_dot : forall (d : dict Z F) (row : list F) (w : list F), stores d row -> length w = length row ->
    let l := map (pair_of w) d in
    mapM (fun kv => b <- lget w (fst kv) ;; Ok (mul (snd kv) b)) d = Ok (prods l) /\ length l <= length row /\
    Rsum (exact_prods l) = Rdot (reals row) (reals w) /\ Rasum (exact_prods l) = Rabsdot (reals row) (reals w).
  Proof.
    intros d row w S L l. split; [|split; [|split]].
    - unfold l, prods. rewrite map_map. apply mapM_pure. intros [k v] I. destruct S as (_ & K & _). specialize (K k (in_map fst _ _ I)). cbn [fst snd pair_of].
      destruct (nth_error w (Z.to_nat k)) as [b|] eqn:E; [|apply nth_error_None in E; rewrite L in E; lia].
      replace k with (Z.of_nat (Z.to_nat k)) at 1 by lia. rewrite lget_nat, (proj2 (lnth_ok _ _ _) E). cbn [bind]. unfold pair_of. cbn [fst snd]. rewrite (nth_error_nth w _ _ E). reflexivity.
    - unfold l. rewrite map_length. pose proof (Permutation_length (stored_perm d row S)) as P. rewrite map_length in P. etransitivity; [apply Nat.eq_le_incl; exact P|].
      etransitivity; [apply filter_short|]. rewrite combine_length, seq_length. lia.
    - unfold l, exact_prods. rewrite map_map. pose proof (stored_sum d row (fun j x => (real x * real (nth j w (f_ofZE 0 0)))%R) S) as Q. cbv beta in Q. unfold pair_of. cbn [fst snd] in *. etransitivity; [apply Q|].
      + intros j x H. rewrite (is0_real x H). ring.
      + etransitivity; [exact (numbered_dot (fun x => x) row w [] L)|]. rewrite !map_id. reflexivity.
    - unfold l, exact_prods, Rasum. rewrite !map_map. pose proof (stored_sum d row (fun j x => Rabs (real x * real (nth j w (f_ofZE 0 0)))%R) S) as Q. cbv beta in Q. unfold pair_of. cbn [fst snd] in *. etransitivity; [apply Q|].
      + intros j x H. rewrite (is0_real x H), Rmult_0_l, Rabs_R0. reflexivity.
      + unfold Rabsdot. etransitivity; [|exact (numbered_dot Rabs row w [] L)]. f_equal. apply map_ext. intros [j x]. cbn [fst snd app]. apply Rabs_mult.
  Qed.

  Lemma any_score : forall (coef : list (list F)) b (d : dict Z F) (row : list F), stores d row -> Forall (fun w => length w = length row) coef -> length b = length coef -> well_sized coef b row ->
    exists ts, dot (Di d) coef = Ok ts /\ length ts = length coef /\
      forall k w bk, nth_error coef k = Some w -> nth_error b k = Some bk -> exists v, nth_error (zip_with add ts b) k = Some v /\ approximates_score row w bk v.
  Proof.
    intros coef b d row S HL LB (Fr & LR & H). exists (map (fun w => fold_left f_add (prods (map (pair_of w) d)) (f_ofZE 0 0)) coef).
    split; [|split; [apply map_length|]].
    - unfold dot. apply mapM_pure. intros w Hw. rewrite Forall_forall in HL. destruct (any_dot d row w S (HL w Hw)) as [E _]. rewrite E. reflexivity.
    - intros k w bk Hw Hb. rewrite Forall_forall in HL. pose proof (HL w (nth_error_In _ _ Hw)) as Lw. destruct (any_dot d row w S Lw) as (_ & LE & S1 & S2). set (l := map (pair_of w) d) in *.
      destruct (H k w bk Hw Hb) as (Fw & Fb & HH). unfold score_size in HH.
      assert (Fl : Forall (fun p => is_finite (fst p) = true /\ is_finite (snd p) = true) l).
      { unfold l. apply Forall_map, Forall_forall. intros [k' v] I. cbn [pair_of fst snd]. split.
        - apply (Permutation_in _ (stored_perm d row S)), in_map_iff in I. destruct I as ((j & x) & E & I). cbn [fst snd] in E. injection E as _ <-. apply filter_In in I. destruct I as [I _]. apply in_numbered in I.
          unfold all_finite in Fr. rewrite Forall_forall in Fr. apply Fr. apply (nth_error_In _ _ (proj2 I)).
        - pose proof (nth_in_or_default (Z.to_nat k') w (f_ofZE 0 0)) as [I'|I']; [|change (num F) with f64 in *; rewrite I'; reflexivity]. unfold all_finite in Fw. rewrite Forall_forall in Fw. apply Fw. exact I'. }
      destruct (dots_err l [bk] Fl) as [F1 E1].
      + repeat constructor; auto.
      + cbn [length]. change (num F) with f64 in *. clearbody l. lia.
      + unfold Rasum at 2. cbn [map Rsum]. rewrite Rplus_0_r, S2. exact HH.
      + rewrite fold_left_app in F1, E1. cbn [fold_left] in F1, E1. exists (f_add (fold_left f_add (prods l) (f_ofZE 0 0)) bk). split.
        * rewrite zip_with_nth, nth_error_map. change (num F) with f64 in *. rewrite Hw. rewrite Hb. reflexivity.
        * split; [exact F1|]. unfold exact_score, score_error, score_size. cbn [length map Rsum] in E1. unfold Rasum at 2 in E1. cbn [map Rsum] in E1. rewrite !Rplus_0_r in E1. rewrite S1, S2 in E1. eapply Rle_trans; [exact E1|].
          apply le_INR in LE. rewrite plus_INR. change (INR 1) with 1%R. pose proof (Rasum_pos (exact_prods l)) as RP. rewrite S2 in RP. pose proof (Rabs_pos (real bk)).
          assert (0 < ulp1)%R by apply bpow_gt_0. assert (0 < tiny)%R by apply bpow_gt_0. change (num F) with f64 in *.
          set (p := INR (length l)) in *. set (q := INR (length row)) in *. set (u := Rabsdot (reals row) (reals w)) in *. clearbody p q u. clear - LE RP H0 H1 H2.
          assert (Q : (p * tiny <= q * tiny)%R) by (apply Rmult_le_compat_r; lra).
          assert (G : ((p + 1 + 1) * ulp1 * (u + Rabs (real bk)) <= (q + 2) * ulp1 * (u + Rabs (real bk)))%R) by (apply Rmult_le_compat_r; [lra|]; apply Rmult_le_compat_r; lra).
          lra.
  Qed.
End Any.
