(** Feature unions, row by row. *)
From Coq Require Import String Lia.
From Verif Require Import Model.Py Model.Arith Model.Utils Model.Base Model.Hash Model.DictVec Model.Text Model.Pipeline Model.Est.
From Verif Require Import Spec.Matrix Spec.Batch Proofs.Lib Proofs.Rows Proofs.Arrays Proofs.Batch Proofs.BatchModels Proofs.BatchText Proofs.BatchEncode Proofs.Pipeline.
Local Open Scope nat_scope.

Lemma mapM_each : forall {S T} (f : S -> res T) l r x, mapM f l = Ok r -> In x l -> exists y, f x = Ok y.
Proof.
  intros S T f l; induction l as [|a l IH]; intros r x E H; [destruct H|]. cbn [mapM] in E. nb E y F. nb E ys F'. destruct H as [<-|H]; [eauto|eapply IH; eauto].
Qed.
(** A second pass over what a first pass left. *)
Lemma chain : forall {S P Q W T} (g1 : S -> res P) (h : P -> W) (g2 : W -> res Q) (K : list P -> list Q -> res T) l,
  oke (ps <- mapM g1 l ;; qs <- mapM g2 (map h ps) ;; K ps qs)
      (rs <- mapM (fun x => p <- g1 x ;; q <- g2 (h p) ;; Ok (p, q)) l ;; K (map fst rs) (map snd rs)).
Proof.
  intros S P Q W T g1 h g2 K l t. rewrite !bind_ok. split.
  - intros (ps & E1 & E2). nb E2 qs E3. rewrite mapM_map in E3. exists (combine ps qs).
    assert (G : mapM (fun x => p <- g1 x ;; q <- g2 (h p) ;; Ok (p, q)) l = Ok (combine ps qs) /\ map fst (combine ps qs) = ps /\ map snd (combine ps qs) = qs).
    { clear E2. revert ps E1 qs E3. induction l as [|x l IH]; intros ps E1 qs E3; [injection E1 as <-; injection E3 as <-; auto|].
      cbn [mapM] in E1. nb E1 p F. nb E1 ps' F'. injection E1 as <-. cbn [mapM] in E3. nb E3 q F2. nb E3 qs' F3. injection E3 as <-.
      destruct (IH _ F' _ F3) as (I1 & I2 & I3). cbn [mapM combine map fst snd]. rewrite F. cbn [bind]. rewrite F2. cbn [bind]. rewrite I1. cbn [bind]. rewrite I2, I3. auto. }
    destruct G as (G1 & -> & ->). auto.
  - intros (rs & E1 & E2). exists (map fst rs).
    assert (G : mapM g1 l = Ok (map fst rs) /\ mapM g2 (map h (map fst rs)) = Ok (map snd rs)).
    { clear E2. revert rs E1. induction l as [|x l IH]; intros rs E1; [injection E1 as <-; auto|]. cbn [mapM] in E1. nb E1 p F. nb E1 ps' F'. injection E1 as <-.
      nb F a F1. nb F b F2. injection F as <-. destruct (IH _ F') as [I1 I2]. cbn [mapM map fst snd]. rewrite F1, I1, F2, I2. auto. }
    destruct G as [-> G]. split; [auto|]. rewrite G. auto.
Qed.
Lemma chain_id : forall {S P Q T} (g1 : S -> res P) (g2 : P -> res Q) (K : list P -> list Q -> res T) l,
  oke (ps <- mapM g1 l ;; qs <- mapM g2 ps ;; K ps qs)
      (rs <- mapM (fun x => p <- g1 x ;; q <- g2 p ;; Ok (p, q)) l ;; K (map fst rs) (map snd rs)).
Proof.
  intros S P Q T g1 g2 K l. eapply oke_trans; [|apply (chain g1 (fun x => x) g2 K)]. apply oke_bind_r. intros ps _. rewrite map_id. apply oke_refl.
Qed.

Section Union.
  Context {A : arith} {L V : Type}.
  Local Notation data := (data A V).
  Local Notation obj := (obj A L V).

  (** One block of a union: lists of one width, a sparse matrix, or something
      else; one row of it (a list or a dict). *)
  Inductive desc := DLs (w : nat) | DSp (sz : option Z) (dt : dtype) | DNo.
  Definition blk : Type := list A * dict Z A.
  Definition b0 : blk := ([], []).
  Definition mk (d : desc) (col : list blk) : arr A :=
    match d with DLs _ => ll (map fst col) | DSp sz dt => Sp (map snd col) sz dt | DNo => NotList end.
  Definition conf (d : desc) (b : blk) : Prop := match d with DLs w => length (fst b) = w | _ => True end.

  Definition desc_of (k : kind) : desc := match k with KLists c => DLs c | KSparse sz dt => DSp sz dt | _ => DNo end.
  Definition blk_of (k : kind) : row (A:=A) (V:=V) k -> blk :=
    match k with KLists _ => fun r => (r, []) | KSparse _ _ => fun d => ([], d) | _ => fun _ => b0 end.
  Lemma mk_of : forall k l, as_arr (build (V:=V) k l) = mk (desc_of k) (map (blk_of k) l).
  Proof.
    intros [c|sz dt| | |c|] l; try reflexivity; cbn [build as_arr desc_of mk]; rewrite map_map; cbn [blk_of].
    - rewrite (map_ext _ (fun x => x)) by reflexivity. rewrite map_id. reflexivity.
    - rewrite (map_ext _ (fun x => x)) by reflexivity. rewrite map_id. reflexivity.
  Qed.
  Lemma conf_of : forall k r, fits (V:=V) k r -> conf (desc_of k) (blk_of k r).
  Proof. intros [c|sz dt| | |c|] r H; cbn; auto. Qed.

  Definition pairup {T} (p : res T * data) : res (T * data) := y <- fst p ;; Ok (y, snd p).
  Definition one_new (k : kind) (f : data -> res (option (arr A)) * data) : Prop :=
    exists d (g : row (A:=A) (V:=V) k -> res (blk * row (A:=A) (V:=V) k)), (forall x b z, fits k x -> g x = Ok (b, z) -> conf d b /\ fits k z) /\
      forall l, batch k l -> oke (pairup (f (build k l))) (ps <- mapM g l ;; Ok (Some (mk d (map fst ps)), build k (map snd ps))).
  Definition one_same (k : kind) (f : data -> res (option (arr A)) * data) : Prop :=
    exists g : row (A:=A) (V:=V) k -> res (row (A:=A) (V:=V) k), (forall x z, fits k x -> g x = Ok z -> fits k z) /\
      forall l, batch k l -> oke (pairup (f (build k l))) (ps <- mapM g l ;; Ok (None, build k ps)).

  Lemma one_never : forall k f, (forall l t, batch k l -> pairup (f (build k l)) <> Ok t) -> one_new k f.
  Proof.
    intros k f H. exists DNo, (fun _ => Err ValueError). split; [discriminate|]. intros l Hl t. split; [intro E; destruct (H _ _ Hl E)|].
    destruct Hl as [N _]. destruct l; [congruence|discriminate].
  Qed.
  Lemma one_none : forall (o : obj) X, pairup (transform_one o None X) = ('(y, X') <- outcome (call_transform o X) ;; Ok (option_map (as_arr (V:=V)) y, X')).
  Proof. intros o X. unfold pairup, transform_one, outcome. cbn [fst snd]. rewrite !bind_assoc. reflexivity. Qed.
  Lemma one_some : forall (o : obj) w X, pairup (transform_one o (Some w) X) =
    ('(y, X') <- outcome (call_transform o X) ;; Y <- apply_2d (as_arr (match y with None => X' | Some Y => Y end)) (fun x => Ok (mul x w)) ;; Ok (Some (ll Y), X')).
  Proof.
    intros o w X. unfold pairup, transform_one, outcome, t_value. cbn [fst snd]. rewrite !bind_assoc. apply bind_ext. intros y _. cbn [bind]. rewrite bind_assoc. reflexivity.
  Qed.

  Lemma one_rows : forall (o : obj) w, row_transform (call_transform o) -> forall k, one_new k (transform_one o w) \/ one_same k (transform_one o w).
  Proof.
    intros o w H k. destruct w as [w|].
    - left.
      assert (SC : forall k' l, apply_2d (as_arr (build (A:=A) (V:=V) k' l)) (fun x => Ok (mul x w)) =
        match desc_of k' with DLs _ => Ok (map (fun b : blk => map (fun x => mul x w) (fst b)) (map (blk_of k') l)) | DSp _ _ => Err ValueError | DNo => Err TypeError end).
      { intros k' l. rewrite mk_of. destruct (desc_of k'); [|reflexivity|reflexivity]. cbn [mk]. rewrite apply_2d_rows, mapM_map.
        rewrite (mapM_ext _ (fun b : blk => Ok (map (fun x => mul x w) (fst b)))) by (intros; apply mapM_Ok). apply mapM_Ok. }
      destruct (H k) as [(k' & g & [_ G1] & G2)|(g & G1 & G2)].
      + destruct (desc_of k') as [c|sz dt|] eqn:ED.
        * exists (DLs c), (fun x => p <- g x ;; Ok ((map (fun v => mul v w) (fst (blk_of k' (fst p))), []) : blk, snd p)). split.
          -- intros x b z Hx E. nb E p F. injection E as <- <-. destruct p as [y z]. destruct (G1 _ _ _ Hx F) as [F1 F2]. split; [|exact F2]. cbn [conf fst snd]. rewrite map_length.
             apply conf_of in F1. rewrite ED in F1. exact F1.
          -- intros l Hl. rewrite one_some. eapply oke_trans; [apply oke_bind_l; apply G2; auto|]. rewrite bind_assoc. cbn [bind]. rewrite <- (oke_comp_map g), bind_assoc. apply oke_bind_r. intros ps _.
             cbn [bind]. rewrite SC, ED. cbn [bind mk]. rewrite !map_map. apply oke_refl.
        * apply one_never. intros l t Hl E. rewrite one_some in E. nb E p F. apply (G2 l Hl) in F. nb F ps F1. injection F as <-. rewrite SC, ED in E. discriminate.
        * apply one_never. intros l t Hl E. rewrite one_some in E. nb E p F. apply (G2 l Hl) in F. nb F ps F1. injection F as <-. rewrite SC, ED in E. discriminate.
      + destruct (desc_of k) as [c|sz dt|] eqn:ED.
        * exists (DLs c), (fun x => p <- g x ;; Ok ((map (fun v => mul v w) (fst (blk_of k p)), []) : blk, p)). split.
          -- intros x b z Hx E. nb E p F. injection E as <- <-. assert (F1 := G1 _ _ Hx F). split; [|exact F1]. cbn [conf fst snd]. rewrite map_length.
             apply conf_of in F1. rewrite ED in F1. exact F1.
          -- intros l Hl. rewrite one_some. eapply oke_trans; [apply oke_bind_l; apply G2; auto|]. rewrite bind_assoc. cbn [bind]. rewrite <- (oke_comp_map g), bind_assoc. apply oke_bind_r. intros ps _.
             cbn [bind]. rewrite SC, ED. cbn [bind mk]. rewrite !map_map. cbn [snd fst]. rewrite map_id. apply oke_refl.
        * apply one_never. intros l t Hl E. rewrite one_some in E. nb E p F. apply (G2 l Hl) in F. nb F ps F1. injection F as <-. rewrite SC, ED in E. discriminate.
        * apply one_never. intros l t Hl E. rewrite one_some in E. nb E p F. apply (G2 l Hl) in F. nb F ps F1. injection F as <-. rewrite SC, ED in E. discriminate.
    - destruct (H k) as [(k' & g & [_ G1] & G2)|(g & G1 & G2)].
      + left. exists (desc_of k'), (fun x => p <- g x ;; Ok (blk_of k' (fst p), snd p)). split.
        * intros x b z Hx E. nb E p F. injection E as <- <-. destruct p as [y z]. destruct (G1 _ _ _ Hx F) as [F1 F2]. split; [apply conf_of; exact F1|exact F2].
        * intros l Hl. rewrite one_none. eapply oke_trans; [apply oke_bind_l; apply G2; auto|]. rewrite bind_assoc. cbn [bind]. rewrite <- (oke_comp_map g), bind_assoc. apply oke_bind_r. intros ps _.
          cbn [bind option_map]. rewrite mk_of, !map_map. apply oke_refl.
      + right. exists g. split; [exact G1|]. intros l Hl. rewrite one_none. eapply oke_trans; [apply oke_bind_l; apply G2; auto|]. rewrite bind_assoc. cbn [bind option_map]. apply oke_refl.
  Qed.

  (** All members, in order. *)
  Definition omk (d : option desc) (col : list blk) : option (arr A) := option_map (fun d => mk d col) d.
  Definition oconf (d : option desc) (b : blk) : Prop := match d with Some d => conf d b | None => True end.
  Fixpoint cols (ds : list (option desc)) (rows : list (list blk)) : list (option (arr A)) :=
    match ds with [] => [] | d :: ds => omk d (map (hd b0) rows) :: cols ds (map (@tl blk) rows) end.
  Lemma all_cons : forall (o : obj) w rest X, pairup (transform_all ((o, w) :: rest) X) =
    ('(y, X') <- pairup (transform_one o w X) ;; '(ys, X'') <- pairup (transform_all rest X') ;; Ok (y :: ys, X'')).
  Proof.
    intros o w rest X. cbn [transform_all]. destruct (transform_one o w X) as [[y|e] X']; cbn; auto. destruct (transform_all rest X') as [[ys|e] X'']; auto.
  Qed.
  Lemma batch_pairs : forall {T} k (P : T -> Prop) (g : row (A:=A) (V:=V) k -> res (T * row (A:=A) (V:=V) k)) l ps,
    (forall x b z, fits k x -> g x = Ok (b, z) -> P b /\ fits k z) -> batch k l -> mapM g l = Ok ps -> batch k (map snd ps).
  Proof.
    intros T k P g l ps H [N F] E. assert (N' := mapM_ne _ _ _ N E). split; [destruct ps; [congruence|discriminate]|]. rewrite Forall_map.
    eapply mapM_Forall; [|exact F|exact E]. intros x [b z] Hx Ex. cbn. eapply H; eauto.
  Qed.
  Lemma all_rows : forall ms : list (obj * option A), Forall (fun m => row_transform (call_transform (fst m))) ms -> forall k,
    exists ds (g : row (A:=A) (V:=V) k -> res (list blk * row (A:=A) (V:=V) k)), length ds = length ms /\
      (forall x bs z, fits k x -> g x = Ok (bs, z) -> Forall2 oconf ds bs /\ fits k z) /\
      forall l, batch k l -> oke (pairup (transform_all ms (build k l))) (ps <- mapM g l ;; Ok (cols ds (map fst ps), build k (map snd ps))).
  Proof.
    intros ms H. induction H as [|[o w] ms Ho H IH]; intro k.
    - exists [], (fun x => Ok ([], x)). split; [auto|]. split; [intros x bs z Hx E; injection E as <- <-; auto|].
      intros l Hl. cbn. rewrite mapM_Ok. cbn [bind]. rewrite map_map, map_id. apply oke_refl.
    - destruct (IH k) as (ds & g2 & HL & F2 & R2). cbn [fst] in Ho. destruct (one_rows o w Ho k) as [(d & g1 & F1 & R1)|(g1 & F1 & R1)].
      + exists (Some d :: ds), (fun x => r <- (p <- g1 x ;; q <- g2 (snd p) ;; Ok (p, q)) ;; Ok (fst (fst r) :: fst (snd r), snd (snd r))). split; [cbn; auto|]. split.
        * intros x bs z Hx E. nb E r F. nb F p F3. nb F q F4. injection F as <-. injection E as <- <-. destruct p as [b z1]. destruct q as [bs z2]. cbn [fst snd] in *.
          destruct (F1 _ _ _ Hx F3) as [K1 K2]. destruct (F2 _ _ _ K2 F4) as [K3 K4]. split; [constructor; auto|auto].
        * intros l Hl. rewrite all_cons. eapply oke_trans; [apply oke_bind_l; apply R1; auto|]. rewrite bind_assoc. cbn [bind].
          eapply oke_trans; [apply oke_bind_r; intros ps Eps; apply oke_bind_l; apply R2; eapply batch_pairs; eauto|].
          eapply oke_trans; [apply oke_bind_r; intros ps _; rewrite bind_assoc; apply oke_refl|]. cbn [bind].
          eapply oke_trans; [apply (chain g1 snd g2 (fun ps qs => Ok (Some (mk d (map fst ps)) :: cols ds (map fst qs), build k (map snd qs))))|].
          rewrite <- oke_comp_map, bind_assoc. apply oke_bind_r. intros rs _. cbn [bind cols omk option_map]. rewrite !map_map. apply oke_refl.
      + exists (None :: ds), (fun x => r <- (p <- g1 x ;; q <- g2 p ;; Ok (p, q)) ;; Ok (b0 :: fst (snd r), snd (snd r))). split; [cbn; auto|]. split.
        * intros x bs z Hx E. nb E r F. nb F p F3. nb F q F4. injection F as <-. injection E as <- <-. destruct q as [bs z2]. cbn [fst snd] in *.
          assert (K2 := F1 _ _ Hx F3). destruct (F2 _ _ _ K2 F4) as [K3 K4]. split; [constructor; cbn; auto|auto].
        * intros l Hl. rewrite all_cons. eapply oke_trans; [apply oke_bind_l; apply R1; auto|]. rewrite bind_assoc. cbn [bind].
          eapply oke_trans; [apply oke_bind_r; intros ps Eps; apply oke_bind_l; apply R2; exact (batch_mapM k k g1 l ps F1 Hl Eps)|].
          eapply oke_trans; [apply oke_bind_r; intros ps _; rewrite bind_assoc; apply oke_refl|]. cbn [bind].
          eapply oke_trans; [apply (chain_id g1 g2 (fun ps qs => Ok (None :: cols ds (map fst qs), build k (map snd qs))))|].
          rewrite <- oke_comp_map, bind_assoc. apply oke_bind_r. intros rs _. cbn [bind cols omk option_map]. rewrite !map_map. apply oke_refl.
  Qed.

  (** Blocks that are the argument itself hold what it is in the end. *)
  Fixpoint blocks (ds : list desc) (rows : list (list blk)) : list (arr A) :=
    match ds with [] => [] | d :: ds => mk d (map (hd b0) rows) :: blocks ds (map (@tl blk) rows) end.
  Definition rd (k : kind) (d : option desc) : desc := match d with Some d => d | None => desc_of k end.
  Fixpoint rb (k : kind) (ds : list (option desc)) (bs : list blk) (z : row (A:=A) (V:=V) k) : list blk :=
    match ds with
    | [] => []
    | d :: ds => (match d with None => blk_of k z | Some _ => hd b0 bs end) :: rb k ds (tl bs) z
    end.
  Lemma resolve : forall {T} k (zf : T -> row (A:=A) (V:=V) k) qs ds (F : T -> list blk),
    map (fun y => match y with None => as_arr (build k (map zf qs)) | Some Y => Y end) (cols ds (map F qs)) =
    blocks (map (rd k) ds) (map (fun q => rb k ds (F q) (zf q)) qs).
  Proof.
    intros T k zf qs ds; induction ds as [|d ds IH]; intro F; [reflexivity|]. cbn [cols map blocks]. f_equal.
    - destruct d as [d|]; cbn [omk option_map rd]; [rewrite !map_map; reflexivity|]. rewrite mk_of, !map_map. reflexivity.
    - rewrite !map_map. rewrite (IH (fun q => tl (F q))). reflexivity.
  Qed.
  Lemma rb_conf : forall k z, fits k z -> forall ds bs, Forall2 oconf ds bs -> Forall2 conf (map (rd k) ds) (rb k ds bs z).
  Proof.
    intros k z Hz ds bs H. induction H as [|d b ds bs Hd H IH]; cbn [map rb hd tl]; constructor; auto. destruct d; cbn [rd]; [exact Hd|apply conf_of; auto].
  Qed.

  Definition join (Xs : list (arr A)) (n : nat) : res (arr A) := if existsb issparse Xs then sparse_union Xs (Ok n) else dense_union Xs n.

  Lemma conf_cols : forall d ds rows, Forall (Forall2 conf (d :: ds)) rows ->
    Forall (conf d) (map (hd b0) rows) /\ Forall (Forall2 conf ds) (map (@tl blk) rows).
  Proof.
    intros d ds rows H. rewrite !Forall_map. split; (eapply Forall_impl; [|exact H]); intros bs Hb; inversion Hb; subst; auto.
  Qed.
  Lemma blocks_in : forall d ds rows, Forall (Forall2 conf ds) rows -> In d ds ->
    exists col, In (mk d col) (blocks ds rows) /\ Forall (conf d) col /\ length col = length rows.
  Proof.
    intros d ds; induction ds as [|d' ds IH]; intros rows H I; [destruct I|]. apply conf_cols in H. destruct H as [H1 H2]. destruct I as [->|I].
    - exists (map (hd b0) rows). split; [left; auto|]. split; [auto|apply map_length].
    - destruct (IH _ H2 I) as (col & I1 & I2 & I3). exists col. split; [right; auto|]. split; [auto|]. rewrite I3. apply map_length.
  Qed.
  Lemma blocks_length : forall ds rows, length (blocks ds rows) = length ds.
  Proof. induction ds; intro rows; cbn; auto. Qed.

  (** dense *)
  Lemma dense_at : forall ds rows j bs, nth_error rows j = Some bs -> length bs = length ds -> Forall (fun d => exists w, d = DLs w) ds ->
    mapM (fun X => row_at X j) (blocks ds rows) = Ok (map (fun b : blk => Ls (fst b)) bs).
  Proof.
    induction ds as [|d ds IH]; intros rows j bs E HL HD; [destruct bs; [reflexivity|discriminate]|]. destruct bs as [|b bs]; [discriminate|].
    inversion HD as [|? ? [w ->] HD']; subst. cbn [blocks mapM mk]. unfold row_at at 1. cbn [ll items bind]. unfold lnth. rewrite !nth_error_map', E. cbn [option_map bind].
    rewrite (IH (map (@tl blk) rows) j bs); auto. rewrite nth_error_map', E. reflexivity.
  Qed.
  Lemma add_rows : forall ls a, foldM (row_add (A:=A)) (map Ls ls) (Ls a) = Ok (Ls (a ++ concat ls)).
  Proof.
    induction ls as [|l ls IH]; intro a; cbn [map foldM concat]; [rewrite app_nil_r; auto|]. cbn [row_add bind]. rewrite IH, app_assoc. auto.
  Qed.
  Lemma dense_rows : forall ds rows, ds <> [] -> Forall (Forall2 conf ds) rows -> Forall (fun d => exists w, d = DLs w) ds ->
    dense_union (blocks ds rows) (length rows) = Ok (ll (map (fun bs => concat (map fst bs)) rows)).
  Proof.
    intros ds rows N HC HD. unfold dense_union. rewrite (range_fun rows _ (fun bs => Ok (concat (map fst bs)))); [rewrite mapM_Ok; auto|].
    intros j bs Ej. assert (HB := Forall_In _ _ _ HC (nth_error_In _ _ Ej)). rewrite (dense_at ds rows j bs); auto.
    2:{ clear - HB. induction HB; cbn; auto. }
    cbn [bind]. destruct bs as [|b bs]; [inversion HB; congruence|]. cbn [map reduce]. replace (map (fun b1 : blk => Ls (fst b1)) bs) with (map Ls (map fst bs)) by apply map_map. rewrite add_rows. reflexivity.
  Qed.

  (** sparse *)
  Definition dsp (d : desc) : desc := match d with DLs w => DSp (Some (Z.of_nat w)) DFloat | d => d end.
  Definition cv (d : desc) (b : blk) : blk := match d with DLs w => ([], sprow (fst b)) | _ => b end.
  Fixpoint cvs (ds : list desc) (bs : list blk) : list blk :=
    match ds with [] => [] | d :: ds => cv d (hd b0 bs) :: cvs ds (tl bs) end.
  Lemma cvs_length : forall ds bs, length (cvs ds bs) = length ds.
  Proof. induction ds; intro bs; cbn; auto. Qed.
  Lemma to_sparse : forall ds rows, rows <> [] -> Forall (Forall2 conf ds) rows -> ~ In DNo ds -> ~ In (DLs 0) ds ->
    mapM (fun X => if issparse X then Ok X else tosparse X) (blocks ds rows) = Ok (blocks (map dsp ds) (map (cvs ds) rows)).
  Proof.
    induction ds as [|d ds IH]; intros rows N HC H1 H2; [reflexivity|]. apply conf_cols in HC. destruct HC as [HC1 HC2]. cbn [blocks mapM map].
    rewrite IH; [|destruct rows; [congruence|discriminate]|auto|intro; apply H1; right; auto|intro; apply H2; right; auto].
    rewrite !map_map. cbn [cvs hd tl].
    assert (E : (if issparse (mk d (map (hd b0) rows)) then Ok (mk d (map (hd b0) rows)) else tosparse (mk d (map (hd b0) rows))) = Ok (mk (dsp d) (map (fun x => cv d (hd b0 x)) rows))).
    { destruct d as [[|w]|sz dt|]; [destruct H2; left; auto| | |destruct H1; left; auto].
      - cbn [mk issparse ll]. change (Arr (map Ls (map fst (map (hd b0) rows)))) with (ll (map fst (map (hd b0) rows))). rewrite (tosparse_ok _ (length rows) (S w)).
        + cbn [dsp mk cv]. rewrite !map_map. reflexivity.
        + split; [rewrite !map_length; auto|]. rewrite Forall_map. exact HC1.
        + destruct rows; [congruence|cbn; lia].
        + lia.
      - cbn [mk issparse dsp cv]. reflexivity. }
    rewrite E. reflexivity.
  Qed.
  Definition is_sp (d : desc) : bool := match d with DSp _ _ => true | _ => false end.
  Lemma sparse_blocks : forall ds rows, existsb issparse (blocks ds rows) = existsb is_sp ds.
  Proof. induction ds as [|d ds IH]; intro rows; cbn [blocks existsb]; [auto|]. rewrite IH. destruct d; reflexivity. Qed.
  Definition sz_of (d : desc) : option Z := match d with DSp sz _ => sz | _ => None end.
  Lemma sizes_ok : forall ds rows, Forall (fun d => is_sp d = true) ds -> mapM (size_of (A:=A)) (blocks ds rows) = Ok (map sz_of ds).
  Proof.
    induction ds as [|d ds IH]; intros rows H; [reflexivity|]. inversion H as [|? ? Hd H']; subst. cbn [blocks mapM map]. rewrite IH by auto. destruct d; try discriminate. reflexivity.
  Qed.
  Definition shift (s : Z) (d : dict Z A) : dict Z A := dict_of Z.eqb (map (fun kv => ((fst kv + s)%Z, snd kv)) d).
  Definition urow (starts : list Z) (bs : list blk) : dict Z A :=
    dict_of Z.eqb (concat (map (fun sb => shift (fst sb) (snd (snd sb))) (combine starts bs))).
  Lemma ublocks : forall ds starts rows j bs, nth_error rows j = Some bs -> length bs = length ds -> length ds <= length starts -> Forall (fun d => is_sp d = true) ds ->
    mapM (fun Xs => x <- row_at (fst Xs) j ;; d <- item_items x ;; Ok (shift (snd Xs) d)) (combine (blocks ds rows) starts) =
    Ok (map (fun sb => shift (fst sb) (snd (snd sb))) (combine starts bs)).
  Proof.
    induction ds as [|d ds IH]; intros starts rows j bs E HL HS HD.
    - destruct bs; [|discriminate]. destruct starts; reflexivity.
    - destruct bs as [|b bs]; [discriminate|]. destruct starts as [|s starts]; [cbn in HS; lia|]. inversion HD as [|? ? Hd HD']; subst. destruct d; try discriminate.
      cbn [blocks combine mapM fst snd map mk]. unfold row_at at 1. cbn [items bind]. unfold lnth. rewrite !nth_error_map', E. cbn [option_map bind item_items hd].
      rewrite (IH starts (map (@tl blk) rows) j bs); auto; [rewrite nth_error_map', E; reflexivity|cbn in HS; lia].
  Qed.
  Lemma union_row_ok : forall ds starts rows j bs, ds <> [] -> nth_error rows j = Some bs -> length bs = length ds -> length ds <= length starts -> Forall (fun d => is_sp d = true) ds ->
    union_row (blocks ds rows) starts j = Ok (urow starts bs).
  Proof.
    intros ds starts rows j bs N E HL HS HD. unfold union_row.
    assert (LC : length (combine (blocks ds rows) starts) = length (blocks ds rows)) by (rewrite combine_length, blocks_length; lia).
    rewrite <- LC. erewrite range_fun; [rewrite (ublocks ds starts rows j bs); auto|].
    - cbn [bind]. destruct bs as [|b bs]; [destruct ds; [congruence|discriminate]|]. destruct starts as [|s starts]; [destruct ds; [congruence|cbn in HS; lia]|]. cbn [combine map reduce].
      assert (RD : forall (ls : list (dict Z A)) a, foldM (fun a b : dict Z A => Ok (a ++ b)) ls a = Ok (a ++ concat ls)).
      { induction ls as [|l ls IH]; intro a; cbn [foldM concat]; [rewrite app_nil_r; auto|]. cbn [bind]. rewrite IH, app_assoc. auto. }
      rewrite RD. reflexivity.
    - intros i [X s] Ei. rewrite nth_error_combine in Ei. destruct (nth_error (blocks ds rows) i) as [X'|] eqn:E1; [|discriminate]. destruct (nth_error starts i) as [s'|] eqn:E2; [|discriminate]. injection Ei as -> ->.
      rewrite (proj2 (lnth_ok _ _ _) E1). cbn [bind fst snd]. apply bind_ext. intros x _. apply bind_ext. intros d _. rewrite (proj2 (lnth_ok _ _ _) E2). unfold shift. reflexivity.
  Qed.
  Lemma all_sp : forall ds, ~ In DNo ds -> Forall (fun d => is_sp d = true) (map dsp ds).
  Proof. intros ds H. rewrite Forall_map, Forall_forall. intros d Hd. destruct d; auto. Qed.
  Lemma sizes_len : forall l ss, mapM known_size l = Ok ss -> length ss = length l.
  Proof. intros l ss. apply mapM_length. Qed.

  (** The union of blocks: lists, a sparse matrix, or never a result. *)
  Lemma join_rows : forall ds, ds <> [] ->
    (exists w (h : list blk -> list A), (forall bs, Forall2 conf ds bs -> length (h bs) = w) /\
       forall rows, rows <> [] -> Forall (Forall2 conf ds) rows -> join (blocks ds rows) (length rows) = Ok (ll (map h rows))) \/
    (exists sz dt (h : list blk -> dict Z A), forall rows, rows <> [] -> Forall (Forall2 conf ds) rows -> join (blocks ds rows) (length rows) = Ok (Sp (map h rows) sz dt)) \/
    (forall rows t, rows <> [] -> Forall (Forall2 conf ds) rows -> join (blocks ds rows) (length rows) <> Ok t).
  Proof.
    intros ds N.
    assert (DE : forall x y : desc, {x = y} + {x <> y}) by (repeat decide equality).
    destruct (in_dec DE DNo ds) as [ID|ID].
    - right; right. intros rows t NR HC E. destruct (blocks_in _ _ _ HC ID) as (col & I1 & I2 & I3). cbn [mk] in I1. unfold join in E. destruct (existsb issparse (blocks ds rows)).
      + unfold sparse_union in E. nb E Xs F. destruct (mapM_each _ _ _ _ F I1) as [y Hy]. discriminate.
      + unfold dense_union in E. nb E M F. destruct rows as [|r rows]; [congruence|]. cbn [length] in F. change (range (S (length rows))) with (0 :: seq 1 (length rows)) in F. cbn [mapM] in F. nb F x F1. nb F1 xs F2.
        destruct (mapM_each _ _ _ _ F2 I1) as [y Hy]. discriminate.
    - destruct (existsb is_sp ds) eqn:ES.
      + destruct (in_dec DE (DLs 0) ds) as [I0|I0].
        * right; right. intros rows t NR HC E. destruct (blocks_in _ _ _ HC I0) as (col & I1 & I2 & I3). cbn [mk] in I1. unfold join in E. rewrite sparse_blocks, ES in E.
          unfold sparse_union in E. nb E Xs F. destruct (mapM_each _ _ _ _ F I1) as [y Hy]. destruct col as [|[c1 c2] col]; [destruct rows; [congruence|discriminate]|].
          inversion I2 as [|? ? HC0 ?]; subst. cbn in HC0. destruct c1; [|discriminate]. cbn in Hy. discriminate.
        * destruct (mapM known_size (map sz_of (map dsp ds))) as [sizes|e] eqn:EK.
          -- right; left. exists (Some (fold_left Z.add sizes 0%Z)), DFloat, (fun bs => urow (0%Z :: accumu sizes) (cvs ds bs)). intros rows NR HC. unfold join. rewrite sparse_blocks, ES. unfold sparse_union.
             rewrite to_sparse by auto. cbn [bind]. rewrite sizes_ok by (apply all_sp; auto). cbn [bind]. rewrite EK. cbn [bind].
             assert (LS : length sizes = length ds) by (rewrite (sizes_len _ _ EK), !map_length; auto).
             rewrite <- (map_length (cvs ds) rows). rewrite (range_fun (map (cvs ds) rows) _ (fun bs => Ok (urow (0%Z :: accumu sizes) bs))).
             ++ rewrite mapM_Ok, map_map. cbn [bind]. destruct rows as [|r rows]; [congruence|reflexivity].
             ++ intros j bs Ej. apply union_row_ok; auto.
                ** destruct ds; [congruence|discriminate].
                ** rewrite nth_error_map' in Ej. destruct (nth_error rows j) as [r|]; [|discriminate]. injection Ej as <-. rewrite cvs_length, map_length. auto.
                ** cbn [length]. rewrite map_length. unfold accumu. rewrite accumu_length. lia.
                ** apply all_sp; auto.
          -- right; right. intros rows t NR HC E. unfold join in E. rewrite sparse_blocks, ES in E. unfold sparse_union in E. rewrite to_sparse in E by auto. cbn [bind] in E.
             rewrite sizes_ok in E by (apply all_sp; auto). cbn [bind] in E. rewrite EK in E. discriminate.
      + left. exists (list_sum (map (fun d => match d with DLs w => w | _ => 0 end) ds)), (fun bs => concat (map fst bs)).
        assert (HD : Forall (fun d => exists w, d = DLs w) ds).
        { apply Forall_forall. intros d Hd. destruct d; eauto; [|destruct ID; auto]. exfalso. assert (X : existsb is_sp ds = true) by (apply existsb_exists; exists (DSp sz dt); auto). congruence. }
        split.
        * intros bs HB. revert HD. clear - HB. induction HB as [|d b ds bs Hd HB IH]; intro HD; [reflexivity|]. inversion HD as [|? ? [w ->] HD']; subst. cbn in *. rewrite app_length. fold (list_sum (map (fun d => match d with DLs w => w | _ => 0 end) ds)). rewrite IH by auto. lia.
        * intros rows NR HC. unfold join. rewrite sparse_blocks, ES. apply dense_rows; auto.
  Qed.

  Lemma batch_check : forall k l, batch (A:=A) (V:=V) k l -> k <> KBad -> check_data (build k l) = Ok (build k l).
  Proof. intros [c|sz dt| | |c|] l [N _] K; try congruence; cbn [build check_data]; [rewrite check_wide by auto; reflexivity|reflexivity|destruct l; [congruence|reflexivity]|destruct l; [congruence|reflexivity]|]. rewrite check_wide by auto. reflexivity. Qed.
  Lemma batch_len : forall k l, k <> KBad -> data_len (A:=A) (V:=V) (build k l) = Ok (length l).
  Proof. intros [c|sz dt| | |c|] l K; try congruence; cbn [build data_len]; try reflexivity; unfold len, ll; cbn [items bind]; rewrite map_length; reflexivity. Qed.
  Lemma not_exn : forall k l, (match build (A:=A) (V:=V) k l with DNum ExnObj => False | _ => True end).
  Proof. intros [c|sz dt| | |c|] l; exact I. Qed.

  Lemma union_eq : forall ms k l, ms <> [] -> batch k l -> k <> KBad ->
    outcome (union_transform (L:=L) ms (build k l)) =
    ('(ys, X2) <- pairup (transform_all ms (build k l)) ;;
     Y <- (let Xs := map (fun y => match y with None => as_arr X2 | Some Y => Y end) ys in
           if existsb issparse Xs then sparse_union Xs (data_len X2) else n <- data_len X2 ;; dense_union Xs n) ;;
     Ok (Some (DNum Y), X2)).
  Proof.
    intros ms k l N HB HK. unfold union_transform. rewrite batch_check by auto.
    assert (NE : forall ys X2, transform_all ms (build k l) = (Ok ys, X2) -> ys <> []).
    { intros ys X2 E. destruct ms as [|[o w] ms]; [congruence|]. cbn [transform_all] in E. destruct (transform_one o w (build k l)) as [[y|] X']; [|discriminate]. destruct (transform_all ms X') as [[ys'|] X'']; [|discriminate].
      injection E as <- _. discriminate. }
    destruct (transform_all ms (build k l)) as [r X2]. unfold pairup, outcome. cbn [fst snd t_out t_after]. destruct r as [ys|e]; [|reflexivity]. cbn [bind]. specialize (NE _ _ eq_refl).
    assert (NX := not_exn k l). destruct ys as [|y ys]; [congruence|]. rewrite bind_assoc. cbn [bind].
    destruct (build k l) as [[| | |]| | |]; try reflexivity. destruct NX.
  Qed.

  Lemma union_rows : forall ms : list (obj * option A), ms <> [] -> Forall (fun m => row_transform (call_transform (fst m))) ms -> row_transform (union_transform ms).
  Proof.
    intros ms N H k. left.
    assert (KD : k = KBad \/ k <> KBad) by (destruct k; auto; right; discriminate). destruct KD as [->|HK]; [apply row_never; discriminate|].
    destruct (all_rows ms H k) as (ds & g & HL & F & R). set (ds' := map (rd k) ds).
    assert (ND : ds' <> []) by (destruct ds; [destruct ms; [congruence|discriminate]|discriminate]).
    assert (EQ : forall l, batch k l -> oke (outcome (union_transform ms (build k l)))
      (ps <- mapM g l ;; Y <- join (blocks ds' (map (fun p => rb k ds (fst p) (snd p)) ps)) (length (map (fun p => rb k ds (fst p) (snd p)) ps)) ;; Ok (Some (DNum Y), build k (map snd ps)))).
    { intros l Hl. rewrite union_eq by auto. eapply oke_trans; [apply oke_bind_l; apply R; auto|]. rewrite bind_assoc. cbn [bind]. apply oke_bind_r. intros ps _. apply oke_eq. cbv zeta.
      rewrite (resolve k snd ps ds fst). rewrite batch_len by auto. cbn [bind]. unfold join, ds'. rewrite !map_length. reflexivity. }
    assert (CF : forall l ps, batch k l -> mapM g l = Ok ps -> Forall (Forall2 conf ds') (map (fun p => rb k ds (fst p) (snd p)) ps) /\ map (fun p => rb k ds (fst p) (snd p)) ps <> []).
    { intros l ps [NL FL] E. split.
      - rewrite Forall_map. eapply mapM_Forall; [|exact FL|exact E]. intros x [bs z] Hx Ex. cbn [fst snd]. destruct (F _ _ _ Hx Ex) as [F1 F2]. apply rb_conf; auto.
      - assert (ps <> []) by (eapply mapM_ne; eauto). destruct ps; [congruence|discriminate]. }
    destruct (join_rows ds' ND) as [(w & h & W & J)|[(sz & dt & h & J)|J]].
    - exists (KLists w), (fun x => p <- g x ;; Ok (h (rb k ds (fst p) (snd p)), snd p)). split.
      + split; [discriminate|]. intros x y z Hx E. nb E p Fp. injection E as <- <-. destruct p as [bs z]. destruct (F _ _ _ Hx Fp) as [F1 F2]. split; [|exact F2]. cbn. apply W. apply rb_conf; auto.
      + intros l Hl. eapply oke_trans; [apply EQ; auto|]. change (row (KLists w)) with (list A). rewrite <- (oke_comp_map g (fun p => (h (rb k ds (fst p) (snd p)), snd p))), bind_assoc. apply oke_bind_r. intros ps Ep.
        destruct (CF _ _ Hl Ep) as [C1 C2]. rewrite J by auto. cbn [bind]. rewrite !map_map. apply oke_eq. reflexivity.
    - exists (KSparse sz dt), (fun x => p <- g x ;; Ok (h (rb k ds (fst p) (snd p)), snd p)). split.
      + split; [discriminate|]. intros x y z Hx E. nb E p Fp. injection E as <- <-. destruct p as [bs z]. destruct (F _ _ _ Hx Fp) as [F1 F2]. split; [exact I|exact F2].
      + intros l Hl. eapply oke_trans; [apply EQ; auto|]. change (row (KSparse sz dt)) with (dict Z A). rewrite <- (oke_comp_map g (fun p => (h (rb k ds (fst p) (snd p)), snd p))), bind_assoc. apply oke_bind_r. intros ps Ep.
        destruct (CF _ _ Hl Ep) as [C1 C2]. rewrite J by auto. cbn [bind]. rewrite !map_map. apply oke_eq. reflexivity.
    - apply row_never. intros l o Hl E. assert (E' : outcome (union_transform ms (build k l)) = Ok (o, t_after (union_transform ms (build k l)))) by (unfold outcome; rewrite E; auto).
      apply (EQ l Hl) in E'. nb E' ps Ep. nb E' Y EY. destruct (CF _ _ Hl Ep) as [C1 C2]. exact (J _ _ C2 C1 EY).
  Qed.
End Union.
