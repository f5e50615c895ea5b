(** Computations that agree when they succeed, and computations that treat the
    rows of a batch one by one. *)
From Verif Require Import Model.Py Proofs.Lib.
From Coq Require Import Lia.

(** [r] and [r'] succeed with the same results (their exceptions may differ). *)
Ltac nb H x F := apply bind_ok in H; destruct H as (x & F & H).

Definition oke {T} (r r' : res T) : Prop := forall t, r = Ok t <-> r' = Ok t.

Lemma oke_refl : forall {T} (r : res T), oke r r. Proof. intros T r t; tauto. Qed.
Lemma oke_eq : forall {T} (r r' : res T), r = r' -> oke r r'. Proof. intros T r r' -> t; tauto. Qed.
Lemma oke_sym : forall {T} (r r' : res T), oke r r' -> oke r' r.
Proof. intros T r r' H t. specialize (H t). tauto. Qed.
Lemma oke_trans : forall {T} (r r' r'' : res T), oke r r' -> oke r' r'' -> oke r r''.
Proof. intros T r r' r'' H K t. specialize (H t). specialize (K t). tauto. Qed.
Lemma oke_err : forall {T} e e', oke (T:=T) (Err e) (Err e').
Proof. intros T e e' t. split; discriminate. Qed.

Lemma oke_bind : forall {S T} (r r' : res S) (k k' : S -> res T),
  oke r r' -> (forall a, r' = Ok a -> oke (k a) (k' a)) -> oke (bind r k) (bind r' k').
Proof.
  intros S T r r' k k' H K t. rewrite !bind_ok. split; intros (a & E & F).
  - apply H in E. exists a. split; auto. apply K; auto.
  - exists a. split; [apply H; auto|]. apply (K _ E); auto.
Qed.
Lemma oke_bind_r : forall {S T} (r : res S) (k k' : S -> res T),
  (forall a, r = Ok a -> oke (k a) (k' a)) -> oke (bind r k) (bind r k').
Proof. intros. apply oke_bind; [apply oke_refl|auto]. Qed.
Lemma oke_bind_l : forall {S T} (r r' : res S) (k : S -> res T), oke r r' -> oke (bind r k) (bind r' k).
Proof. intros. apply oke_bind; [auto|intros; apply oke_refl]. Qed.

Lemma oke_mapM : forall {S T} (f g : S -> res T) l, (forall x, In x l -> oke (f x) (g x)) -> oke (mapM f l) (mapM g l).
Proof.
  intros S T f g l; induction l as [|x l IH]; intro H; [apply oke_refl|]. cbn [mapM].
  apply oke_bind; [apply H; left; auto|]. intros y _. apply oke_bind_l. apply IH. intros; apply H; right; auto.
Qed.
Lemma oke_comp : forall {R S T} (f : R -> res S) (g : S -> res T) l,
  oke (r <- mapM f l ;; mapM g r) (mapM (fun x => y <- f x ;; g y) l).
Proof.
  intros R S T f g l t. rewrite bind_ok. split.
  - intros (r & E & F). rewrite <- (mapM_mapM f g _ _ E). auto.
  - intro E. revert t E. induction l as [|x l IH]; intros t E.
    + exists []. auto.
    + cbn [mapM] in E. inv_bind E. inv_bind E. inv_bind E0. injection E as <-.
      destruct (IH _ E1) as (r & F1 & F2). exists (a1 :: r). cbn [mapM]. rewrite E2, F1, E0, F2. auto.
Qed.
(** the same, with a pure step on the results *)
Lemma oke_comp_map : forall {R S T} (f : R -> res S) (g : S -> T) l,
  (r <- mapM f l ;; Ok (map g r)) = mapM (fun x => y <- f x ;; Ok (g y)) l.
Proof.
  intros R S T f g l; induction l as [|x l IH]; [auto|]. cbn [mapM]. destruct (f x); cbn; auto.
  rewrite <- IH. destruct (mapM f l); auto.
Qed.
(** something computed once, before the loop *)
Lemma oke_hoist : forall {R S T} (m : res R) (f : R -> S -> res T) l, l <> [] ->
  oke (c <- m ;; mapM (f c) l) (mapM (fun x => c <- m ;; f c x) l).
Proof.
  intros R S T m f l N. destruct m as [c|e]; cbn; [apply oke_refl|].
  destruct l; [congruence|]. apply oke_err.
Qed.
Lemma oke_never : forall {S T} e (g : S -> res T) l, l <> [] -> (forall x t, In x l -> g x <> Ok t) -> oke (Err e) (mapM g l).
Proof.
  intros S T e g [|x l] N H t; [congruence|]. split; [discriminate|]. cbn [mapM]. intro E. inv_bind E.
  destruct (H x a); [left; auto|auto].
Qed.
Lemma oke_fails : forall {S T} e e' l, l <> [] -> oke (Err e) (mapM (fun _ : S => Err (A:=T) e') l).
Proof. intros. apply oke_never; [auto|discriminate]. Qed.

Lemma mapM_ne : forall {S T} (f : S -> res T) l r, l <> [] -> mapM f l = Ok r -> r <> [].
Proof. intros S T f [|x l] r N H; [congruence|]. cbn in H. inv_bind H. inv_bind H. injection H as <-. discriminate. Qed.
Lemma mapM_Forall : forall {S T} (P : S -> Prop) (Q : T -> Prop) (f : S -> res T) l r,
  (forall x y, P x -> f x = Ok y -> Q y) -> Forall P l -> mapM f l = Ok r -> Forall Q r.
Proof.
  intros S T P Q f l r H HP E. apply mapM_Forall2 in E. induction E as [|x y l r E F IH]; constructor.
  - inversion HP; subst. eapply H; eauto.
  - apply IH. inversion HP; auto.
Qed.
Lemma Forall_In : forall {S} (P : S -> Prop) l x, Forall P l -> In x l -> P x.
Proof. intros S P l x H. rewrite Forall_forall in H. auto. Qed.

(** Columns to rows: [cs] columns computed one after the other, then read row
    by row. *)
Lemma oke_rows : forall {C S T R} (h : C -> S -> res T) (k : list T -> res R) cs l,
  oke (P <- mapM (fun c => mapM (h c) l) cs ;;
       mapM (fun i => r <- mapM (fun p => lnth p i) P ;; k r) (range (length l)))
      (mapM (fun x => r <- mapM (fun c => h c x) cs ;; k r) l).
Proof.
  intros C S T R h k cs l t. rewrite bind_ok.
  assert (G : forall P, mapM (fun c => mapM (h c) l) cs = Ok P ->
    mapM (fun i => r <- mapM (fun p => lnth p i) P ;; k r) (range (length l)) =
    mapM (fun x => r <- mapM (fun c => h c x) cs ;; k r) l).
  { intros P E. rewrite <- (mapM_range_nth l (fun x => r <- mapM (fun c => h c x) cs ;; k r)).
    apply mapM_ext. intros i Hi. apply in_seq in Hi. destruct (lnth_lt l i ltac:(lia)) as (x & E1 & E2). rewrite E1.
    cbn [bind]. f_equal. clear - E E2. apply mapM_Forall2 in E. induction E as [|c p cs P E F IH]; [reflexivity|].
    cbn [mapM]. destruct (mapM_nth _ _ _ _ _ E E2) as (y & F1 & F2). rewrite F2. unfold lnth at 1. rewrite F1. cbn.
    rewrite IH. auto. }
  split.
  - intros (P & E & F). rewrite (G _ E) in F. auto.
  - intro E. assert (Q : exists P, mapM (fun c => mapM (h c) l) cs = Ok P).
    { apply mapM_total. intros c Hc. apply mapM_total. intros x Hx. apply mapM_Forall2 in E.
      clear G. revert t E Hx. induction l as [|y l IH]; intros t E Hx; [destruct Hx|]. inversion E as [|? ? ? ? E1 F1]; subst.
      destruct Hx as [->|Hx]; [|eapply IH; eauto]. inv_bind E1.
      clear - E0 Hc. revert a E0. induction cs as [|c' cs IH]; intros a E0; [destruct Hc|]. cbn [mapM] in E0.
      inv_bind E0. inv_bind E0. destruct Hc as [->|Hc]; [eauto|]. eapply IH; eauto. }
    destruct Q as [P Q]. exists P. split; auto. rewrite (G _ Q). auto.
Qed.

(** Accumulating a column. *)
Lemma oke_fold : forall {E S T} (op : T -> T -> T) (h : E -> S -> res T) l es acc, length acc = length l ->
  oke (foldM (fun acc e => p <- mapM (h e) l ;; Ok (zip_with op acc p)) es acc)
      (mapM (fun ax => foldM (fun a e => v <- h e (snd ax) ;; Ok (op a v)) es (fst ax)) (combine acc l)).
Proof.
  intros E S T op h l es; induction es as [|e es IH]; intros acc HL; cbn [foldM].
  - apply oke_eq. symmetry. rewrite mapM_Ok. f_equal. clear - HL. revert l HL.
    induction acc as [|a acc IH]; intros [|x l] HL; cbn in *; try discriminate; auto. f_equal. apply IH. lia.
  - rewrite bind_assoc. cbn [bind].
    eapply oke_trans; [apply oke_bind_r with (k' := fun p => mapM (fun ax => foldM (fun a e => v <- h e (snd ax) ;; Ok (op a v)) es (fst ax)) (combine (zip_with op acc p) l))|].
    + intros p Hp. apply IH. apply mapM_length in Hp. rewrite zip_with_length. lia.
    + clear IH. revert l HL. induction acc as [|a acc IHa]; intros [|x l] HL; cbn in HL; try discriminate; [apply oke_refl|].
      cbn [mapM combine fst snd]. injection HL as HL. specialize (IHa _ HL). intro t. rewrite bind_ok. split.
      * intros (p & E1 & E2). inv_bind E1. inv_bind E1. injection E1 as <-. cbn [zip_with combine mapM fst snd] in E2.
        rewrite E0. cbn [bind]. inv_bind E2. rewrite E1. cbn [bind]. inv_bind E2. injection E2 as <-.
        assert (K := proj1 (IHa a3)). rewrite K; [reflexivity|]. rewrite E3. cbn. auto.
      * intro E1. nb E1 b F1. nb E1 bs F2. injection E1 as <-. nb F1 b' F3. nb F3 v F4. injection F3 as <-.
        apply IHa in F2. nb F2 p F5. exists (v :: p). rewrite F4, F5. cbn. rewrite F1, F2. auto.
Qed.
Lemma oke_fold_rep : forall {E S T} (op : T -> T -> T) (h : E -> S -> res T) (z : T) l es,
  oke (foldM (fun acc e => p <- mapM (h e) l ;; Ok (zip_with op acc p)) es (rep z (length l)))
      (mapM (fun x => foldM (fun a e => v <- h e x ;; Ok (op a v)) es z) l).
Proof.
  intros. eapply oke_trans; [apply oke_fold; apply repeat_length|]. apply oke_eq. unfold rep.
  induction l as [|x l IH]; [reflexivity|]. cbn [length repeat combine mapM fst snd]. rewrite IH. auto.
Qed.
(** in a loop that does not recompute the column the same way *)
Lemma oke_foldM : forall {E B} (f g : B -> E -> res B) (P : B -> Prop) es b,
  P b -> (forall b e, P b -> In e es -> oke (f b e) (g b e)) -> (forall b e b', P b -> In e es -> g b e = Ok b' -> P b') ->
  oke (foldM f es b) (foldM g es b).
Proof.
  intros E B f g P es; induction es as [|e es IH]; intros b Hb H K; [apply oke_refl|]. cbn [foldM].
  apply oke_bind; [apply H; [auto|left; auto]|]. intros b' Eb. apply IH.
  - eapply K; [exact Hb|left; auto|exact Eb].
  - intros; apply H; [auto|right; auto].
  - intros; eapply K; [eassumption|right; eauto|eauto].
Qed.

(** Splitting a batch: what [mapM] does on a concatenation. *)
Lemma mapM_concat : forall {S T} (g : S -> res T) (ls : list (list S)) r,
  mapM g (concat ls) = Ok r <-> exists rs, Forall2 (fun l q => mapM g l = Ok q) ls rs /\ r = concat rs.
Proof.
  intros S T g ls; induction ls as [|l ls IH]; intro r; cbn [concat].
  - cbn. split.
    + intro H. injection H as <-. exists []. auto.
    + intros (rs & H & ->). inversion H. auto.
  - rewrite mapM_app. split.
    + intro H. inv_bind H. inv_bind H. injection H as <-. apply IH in E0. destruct E0 as (rs & F & ->).
      exists (a :: rs). auto.
    + intros (rs & H & ->). inversion H; subst. rewrite H2. cbn [bind].
      assert (K : mapM g (concat ls) = Ok (concat l')) by (apply IH; eauto). rewrite K. auto.
Qed.
