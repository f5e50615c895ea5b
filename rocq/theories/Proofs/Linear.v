(** Linear classifiers. *)
From Coq Require Import String Lia.
From Verif Require Import Model.Py Model.Arith Model.Utils Model.Base Model.Linear.
From Verif Require Import Spec.Matrix Spec.Linear.
From Verif Require Import Proofs.Lib Proofs.Laws Proofs.Unit Proofs.Arrays Proofs.Argmax Proofs.Ensemble.
Local Open Scope nat_scope.

Lemma singletons : forall {T} (M : list (list T)), Forall (fun r => length r = 1) M -> exists l, M = map (fun x => [x]) l.
Proof.
  intros T M H; induction H as [|row M Hr H [l ->]]; [exists []; auto|].
  destruct row as [|x [|]]; try discriminate. exists (x :: l). auto.
Qed.
Lemma zipstar_column : forall {T} (l : list T), l <> [] -> zipstar (map (fun v => [v]) l) = [l].
Proof.
  intros T l; induction l as [|a l IH]; intro N; [congruence|]. destruct l as [|b l]; auto.
  change (zipstar (map (fun v => [v]) (a :: b :: l))) with (zip_with cons [a] (zipstar (map (fun v => [v]) (b :: l)))).
  rewrite IH by discriminate. auto.
Qed.

Section Lin.
  Context {A : arith} {L : Type}.

  Definition affine_row (coef : list (list A)) (b row : list A) : list A := zip_with add (map (dotp row) coef) b.
  Lemma affine_row_ok : forall (coef : list (list A)) b row, length b = length coef -> affine coef b row (affine_row coef b row).
  Proof.
    intros coef b row H. unfold affine_row. split; [rewrite zip_with_length, map_length; lia|].
    intros k w bk Hw Hb. rewrite zip_with_nth, nth_error_map', Hw, Hb. auto.
  Qed.
  Lemma affine_unique : forall (coef : list (list A)) b row s s', length b = length coef -> affine coef b row s -> affine coef b row s' -> s = s'.
  Proof.
    intros coef b row s s' HB [L1 H1] [L2 H2]. apply list_eq_nth. intro k.
    destruct (nth_error coef k) as [w|] eqn:E.
    - destruct (nth_error_len _ _ _ _ HB E) as [bk Eb]. rewrite (H1 k w bk), (H2 k w bk); auto.
    - apply nth_error_None in E. rewrite !(proj2 (nth_error_None _ _)); auto; lia.
  Qed.

  Lemma scores_flat : forall (M : list (item A)) (S : list (list A)) (c : linear A L) K, 1 <= K -> M <> [] ->
    mapM (row_scores c) M = Ok S -> Forall (fun s => length s = K) S -> exists d,
    (scores <- mapM (row_scores c) M ;;
     ws <- shape1 (ll scores) ;;
     match ws with
     | Some 1%Z => r <- ravel (ll scores) ;; Ok (D1 r)
     | _ => Ok (D2 scores)
     end) = Ok d /\ scores_are K S d.
  Proof.
    intros M S c K HK N E HS. rewrite E. cbn [bind].
    pose proof (mapM_length _ _ _ E) as Ln. destruct S as [|s0 S]; [destruct M; [congruence|discriminate]|].
    assert (R : rect (s0 :: S) (length (s0 :: S)) K) by (split; auto).
    unfold shape1. rewrite (shape_ll' _ _ K R) by (simpl; lia). cbn [bind].
    destruct (Nat.eq_dec K 1) as [->|NK].
    - change (Z.of_nat 1) with 1%Z. cbv iota. unfold ravel. cbn [issparse ll]. fold (ll (s0 :: S)). rewrite transpose_ll. cbn [bind].
      destruct (singletons (s0 :: S) HS) as [l El]. rewrite El.
      assert (Nl : l <> []) by (destruct l; discriminate).
      rewrite (zipstar_column l Nl). unfold lnth. cbn [nth_error bind]. eexists. split; [reflexivity|]. right. split; auto. exists l. auto.
    - exists (D2 (s0 :: S)). split; [|left; auto].
      assert (NZ : Z.of_nat K <> 1%Z) by lia. destruct (Z.of_nat K) as [|p|p]; auto. destruct p; auto. congruence.
  Qed.

  Lemma dec_rows : forall (c : linear A L) d K b (M : list (list A)) row0 rest,
    fitted_linear c d K b -> M = row0 :: rest -> length row0 = d ->
    exists s, decision_function c (ll M) = Ok s /\ scores_are K (map (affine_row (l_coef c) b) M) s.
  Proof.
    intros c d K b M row0 rest (RC & HK & HI & Lb) EM L0. unfold decision_function.
    assert (CA : check_array (ll M) HAllow = Ok (ll M)) by (subst M; reflexivity). rewrite CA. cbn [bind].
    unfold shape1 at 1 2. rewrite (shape_ll' _ _ _ RC HK). cbn [bind].
    assert (SM : shape (ll M) = Ok (S2 (Z.of_nat (length M)) (Some (Z.of_nat d)))).
    { subst M. unfold shape, ll. cbn [items bind map length]. rewrite map_length, L0. auto. }
    rewrite SM. cbn [bind]. rewrite Z.eqb_refl. cbn [guard bind]. unfold ll at 1. cbn [items bind].
    apply scores_flat; auto; [subst M; discriminate| |].
    - rewrite mapM_map. apply mapM_pure. intros row _. unfold row_scores. rewrite dot_dense. cbn [bind]. rewrite HI. reflexivity.
    - apply Forall_map, Forall_forall. intros row _. unfold affine_row. rewrite zip_with_length, map_length, Lb. destruct RC as [-> _]. lia.
  Qed.

  Lemma dec_stored : arith_ok A -> forall (c : linear A L) d K b rows (M : list (list A)) r dt,
    fitted_linear c d K b -> Forall (Forall finite) (l_coef c) -> Forall2 stores_sorted rows M -> rect M r d -> 1 <= r ->
    decision_function c (Sp rows (Some (Z.of_nat d)) dt) = decision_function c (ll M).
  Proof.
    intros OK c d K b rows M r dt (RC & HK & HI & Lb) HF HS [LM RM] Hr. unfold decision_function.
    destruct M as [|m0 M0]; [simpl in LM; lia|]. set (M := m0 :: M0) in *. destruct rows as [|d0 rows0]; [inversion HS|]. set (rows := d0 :: rows0) in *.
    change (check_array (ll M) HAllow) with (Ok (ll M)). change (check_array (Sp rows (Some (Z.of_nat d)) dt) HAllow) with (Ok (Sp rows (Some (Z.of_nat d)) dt)).
    cbn [bind]. unfold shape1 at 1 2 4 5. rewrite (shape_ll' _ _ _ RC HK). cbn [bind].
    assert (SM : shape (ll M) = Ok (S2 (Z.of_nat r) (Some (Z.of_nat d)))) by (apply shape_ll'; [split; auto|auto]).
    rewrite SM. assert (SS : shape (Sp rows (Some (Z.of_nat d)) dt) = Ok (S2 (Z.of_nat (length rows)) (Some (Z.of_nat d)))).
    { unfold shape. cbn [items bind]. unfold rows. cbn [map]. cbn [length]. rewrite map_length. auto. }
    rewrite SS. cbn [bind]. rewrite Z.eqb_refl. cbn [guard bind]. change (items (ll M)) with (Ok (map Ls M)). cbn [items bind].
    assert (ES : mapM (row_scores c) (map Di rows) = mapM (row_scores c) (map Ls M)).
    { rewrite !mapM_map. clearbody rows M. clear LM SM SS Hr m0 M0 d0 rows0. induction HS as [|x y rows M S HS IH]; auto.
      inversion RM; subst. cbn [mapM]. rewrite IH by auto. unfold row_scores at 1 3.
      rewrite (dot_stored OK x y (l_coef c) S); auto. destruct RC as [_ RC]. rewrite Forall_forall in *. intros w Hw. split; auto. }
    rewrite ES. auto.
  Qed.
End Lin.
