(** Proofs for C82. *)
From Coq Require Import Permutation Lia.
From Verif Require Import Model.Py Model.Arith Model.Utils Model.Base Model.Tree Model.Ensemble Model.Hash Model.Text Model.DictVec.
From Verif Require Import Spec.Text Spec.Features Spec.Reorder Proofs.Lib Proofs.Encode Proofs.Text Proofs.Features.

Section Reorder.
  Context {A : arith}.

  Lemma hits_perm : forall v j fs fs', Permutation fs fs' -> hits v j fs = hits v j fs'.
  Proof. intros v j fs fs' P. induction P; cbn [hits]; lia. Qed.
  Lemma count_same : forall v fs fs', Permutation fs fs' -> same_entries (count_features (A:=A) v fs) (count_features v fs').
  Proof. intros v fs fs' P j. rewrite (proj2 (count_ok' v fs)), (proj2 (count_ok' v fs')). rewrite (hits_perm v j fs fs' P). reflexivity. Qed.

  Lemma last_of_perm : forall {K T} (dec : forall x y : K, {x = y} + {x <> y}) (l l' : list (K * T)) k, Permutation l l' -> NoDup (map fst l) -> last_of dec k l = last_of dec k l'.
  Proof.
    intros K T dec l l' k P. induction P as [|[a x] l l' P IH|[a x] [b y] l|l l' l'' P1 IH1 P2 IH2]; intro N.
    - reflexivity.
    - cbn [last_of]. inversion N; subst. rewrite IH; auto.
    - cbn [last_of]. cbn [map fst] in N. inversion N as [|? ? N1 N2]; subst. destruct (last_of dec k l); [reflexivity|]. destruct (dec a k), (dec b k); subst; try reflexivity. exfalso. apply N1. left. reflexivity.
    - rewrite IH1; auto. apply IH2. eapply Permutation_NoDup; [|exact N]. apply Permutation_map. exact P1.
  Qed.
  Lemma cells_perm : forall v l l', Permutation l l' -> Permutation (Features.cells (A:=A) v l) (Features.cells v l').
  Proof.
    intros v l l' P. induction P as [|[a x] l l' P IH|[a x] [b y] l|l l' l'' P1 IH1 P2 IH2]; cbn [Features.cells]; auto.
    - destruct (dlookup str_eqb a v); auto.
    - destruct (dlookup str_eqb a v), (dlookup str_eqb b v); auto. apply perm_swap.
    - eapply perm_trans; eauto.
  Qed.

  Context {L : Type}.
  Lemma get_same : forall (r r' : dict Z A) f z, same_entries r r' -> dget_default Z.eqb r f z = dget_default Z.eqb r' f z.
  Proof. intros r r' f z H. unfold dget_default. rewrite (H f). reflexivity. Qed.
  Lemma descend_same : forall (t : tree A L) r r', same_entries r r' -> forall n nd, descend t (Di r) n nd = descend t (Di r') n nd.
  Proof.
    intros t r r' H n. induction n as [|n IH]; intro nd; [reflexivity|]. cbn [descend].
    destruct (lget (t_left t) nd) as [l|]; [|reflexivity]. cbn [bind]. destruct (lget (t_right t) nd) as [rr|]; [|reflexivity]. cbn [bind]. destruct (l =? rr)%Z; [reflexivity|].
    assert (E : split_value t (Di r) nd = split_value t (Di r') nd). { unfold split_value. destruct (lget (t_feature t) nd) as [f|]; [|reflexivity]. cbn [bind]. f_equal. apply get_same. exact H. }
    rewrite E. destruct (split_value t (Di r') nd); [|reflexivity]. cbn [bind]. destruct (lget (t_thr t) nd); [|reflexivity]. cbn [bind]. rewrite !IH. reflexivity.
  Qed.
  Lemma leaves_same : forall (t : tree A L) rows rows' sz dt, Forall2 same_entries rows rows' -> leaves t (Sp rows sz dt) = leaves t (Sp rows' sz dt).
  Proof.
    intros t rows rows' sz dt F. unfold leaves. cbn [check_array bind items]. 
    induction F as [|r r' rows rows' H F IH]; [reflexivity|]. cbn [map mapM]. unfold get_leaf_node at 1 3. rewrite (descend_same t r r' H). rewrite IH. reflexivity.
  Qed.
End Reorder.
