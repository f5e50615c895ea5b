(** Proofs that well-formed inputs are accepted: transformers of numbers. *)
From Coq Require Import String Lia.
From Verif Require Import Model.Py Model.Arith Model.Utils Model.Base Model.Hash Model.DictVec Model.Text Model.Tree
  Model.Ensemble Model.Xgb Model.Linear Model.NaiveBayes Model.Dummy Model.Preprocessing Model.Encoders
  Model.Impute Model.Pipeline Model.Est.
From Verif Require Import Spec.Matrix Spec.Impute Spec.Accepts Proofs.Lib Proofs.Laws Proofs.Argmax Proofs.Arrays Proofs.Arrays2 Proofs.Scaling Proofs.Impute Proofs.Pipeline.

(** The operations that never raise. *)
Record total_arith (A : arith) : Prop := {
  ta_ord : ord_ok A;
  ta_div : forall x y : A, eqb y zero = false -> exists v, div x y = Ok v;
  ta_one : eqb (one : A) zero = false;
  ta_sqrt : forall l : list A, exists v, sqrtv (psum (map (fun x => mul x x) l)) = Ok v;
  ta_conv : forall d, conv d (one : A) = Ok one;
  ta_zero : eqb (zero : A) zero = true;
  ta_exp : forall x : A, exists y, safe_exp x = Ok y;
  ta_log : forall x : A, exists y, safe_log x = Ok y;
  ta_expit : forall x : A, exists y, expit x = Ok y;
  ta_odds : forall v : A, eqb (sub one (clip v EPS (sub one EPS))) zero = false;
  ta_count : forall n, 1 <= n -> eqb (ofnat n : A) zero = false;
}.

Lemma mapM_all : forall {S T} (f : S -> res T) (P : T -> Prop) l, (forall x, In x l -> exists y, f x = Ok y /\ P y) ->
  exists r, mapM f l = Ok r /\ length r = length l /\ Forall P r.
Proof.
  intros S T f P l H. induction l as [|x l IH]; [exists []; auto|]. destruct (H x (or_introl eq_refl)) as (y & E & Py).
  destruct IH as (r & Er & Lr & Fr); [intros; apply H; right; auto|]. exists (y :: r). cbn [mapM]. rewrite E. cbn [bind]. rewrite Er. cbn [bind length]. auto.
Qed.

Section Numeric.
  Context {A : arith} (TA : total_arith A).

  Definition good_rows (M : list (list A)) (n w : nat) : Prop := rect M n w.

  Lemma rows_ne : forall (M : list (list A)) n w, 1 <= n -> rect M n w -> M <> [].
  Proof. intros M n w Hn [L _] ->. cbn in L. lia. Qed.

  Lemma nonzero_in : forall (l : list A) x, nonzero l -> In x l -> eqb x zero = false.
  Proof. intros l x H. unfold nonzero in H. rewrite Forall_forall in H. apply H. Qed.
  Lemma handle_zeros_ok : forall ns : list A, nonzero (handle_zeros ns) /\ length (handle_zeros ns) = length ns.
  Proof.
    intros ns. unfold handle_zeros, nonzero. split; [|apply map_length]. apply Forall_forall. intros x Hx. apply in_map_iff in Hx.
    destruct Hx as (y & <- & _). destruct (eqb y zero) eqn:E; auto. apply (ta_one _ TA).
  Qed.

  Lemma nth_in_range : forall {T} (l : list T) i, i < length l -> exists x, lnth l i = Ok x /\ In x l.
  Proof.
    intros T l i H. destruct (nth_error l i) as [x|] eqn:E; [|apply nth_error_None in E; lia].
    exists x. split; [apply lnth_ok; auto|eapply nth_error_In; eauto].
  Qed.
  Lemma lget_in_range : forall {T} (l : list T) k, (0 <= k < Z.of_nat (length l))%Z -> exists x, lget l k = Ok x /\ In x l.
  Proof.
    intros T l k H. unfold lget. replace (k <? 0)%Z with false by (symmetry; apply Z.ltb_ge; lia).
    replace ((0 <=? k) && (k <? Z.of_nat (length l)))%Z with true by (symmetry; apply andb_true_iff; split; [apply Z.leb_le|apply Z.ltb_lt]; lia).
    apply nth_in_range. lia.
  Qed.

  Lemma rect_of : forall (D : list (list A)) n w, length D = n -> Forall (fun r => length r = w) D -> rect D n w.
  Proof. split; auto. Qed.

  Lemma scale_rows_dense : forall (M : list (list A)) n w ns, rect M n w -> length ns = n -> nonzero ns ->
    exists D, scale_rows (ll M) ns = Ok (ll D) /\ rect D n w.
  Proof.
    intros M n w ns [LM FM] LN NZ. unfold scale_rows, ll. cbn [items bind]. rewrite map_length.
    destruct (mapM_all (fun i => x <- lnth (map Ls M) i ;; r <- iter_item x ;; mapM (fun a => n <- lnth ns i ;; div a n) r) (fun r : list A => length r = w) (range (length M))) as (D & E & LD & FD).
    - intros i Hi. apply in_seq in Hi. destruct (nth_in_range (map Ls M) i) as (x & Ex & Ix); [rewrite map_length; lia|].
      rewrite Ex. cbn [bind]. apply in_map_iff in Ix. destruct Ix as (row & <- & Irow). cbn [iter_item bind].
      destruct (nth_in_range ns i) as (nn & En & In_); [lia|]. rewrite En.
      destruct (mapM_all (fun a : A => n0 <- Ok nn ;; div a n0) (fun _ => True) row) as (r & Er & Lr & _).
      + intros a _. cbn [bind]. destruct (ta_div _ TA a nn (nonzero_in _ _ NZ In_)) as [v Ev]. exists v. auto.
      + exists r. split; auto. rewrite Lr. rewrite Forall_forall in FM. apply FM; auto.
    - rewrite E. cbn [bind]. exists D. split; auto. split; auto. rewrite LD. unfold range. rewrite seq_length. auto.
  Qed.

  Lemma dmapM_keys : forall {T} (f : Z -> T -> res A) d, (forall k v, In (k, v) d -> exists w, f k v = Ok w) ->
    exists d', dmapM f d = Ok d' /\ map fst d' = map fst d.
  Proof.
    intros T f d H. unfold dmapM. induction d as [|[k v] d IH]; [exists []; auto|].
    destruct (H k v (or_introl eq_refl)) as [w E]. destruct IH as (d' & E' & K); [intros; apply H; right; auto|].
    exists ((k, w) :: d'). cbn [mapM fst snd]. rewrite E. cbn [bind]. rewrite E'. cbn [bind map fst]. rewrite K. auto.
  Qed.
  Lemma row_keys : forall w (d d' : dict Z A), map fst d' = map fst d -> row_of w d -> row_of w d'.
  Proof. intros w d d' E [N H]. unfold row_of. rewrite E. auto. Qed.

  Lemma scale_rows_sparse : forall (rows : list (dict Z A)) n w sz dt ns, 1 <= n -> length rows = n -> Forall (row_of w) rows -> length ns = n -> nonzero ns ->
    exists rows', scale_rows (Sp rows sz dt) ns = Ok (Sp rows' sz dt) /\ length rows' = n /\ Forall (row_of w) rows'.
  Proof.
    intros rows n w sz dt ns Hn LR FR LN NZ. unfold scale_rows.
    destruct (mapM_all (fun i => r <- lnth rows i ;; dmapM (fun _ v => n <- lnth ns i ;; div v n) r) (row_of w) (range (length rows))) as (D & E & LD & FD).
    - intros i Hi. apply in_seq in Hi. destruct (nth_in_range rows i) as (d & Ed & Id); [lia|]. rewrite Ed. cbn [bind].
      destruct (nth_in_range ns i) as (nn & En & In_); [lia|]. rewrite En.
      destruct (dmapM_keys (fun (_ : Z) (v : A) => n0 <- Ok nn ;; div v n0) d) as (d' & E' & K).
      + intros k v _. cbn [bind]. apply (ta_div _ TA), (nonzero_in _ _ NZ In_).
      + exists d'. split; auto. apply (row_keys w d); auto. rewrite Forall_forall in FR. auto.
    - rewrite E. cbn [bind]. unfold range in LD. rewrite seq_length in LD. exists D. split; [|split; auto; lia].
      unfold sparse_list. destruct D; [cbn in LD; lia|]. reflexivity.
  Qed.

  Lemma pymax_ok : forall l : list A, l <> [] -> exists v, pymax gtb l = Ok v.
  Proof. intros [|x l] H; [congruence|]. eexists. reflexivity. Qed.

  Lemma norms_dense : forall nm (M : list (list A)) n w, 1 <= n -> rect M n w -> In nm norm_names -> (nm = lit "max" -> 1 <= w) ->
    exists ns, norms_of (ll M) nm = Ok ns /\ length ns = n.
  Proof.
    intros nm M n w Hn R I HM. destruct I as [<-|[<-|[<-|[]]]].
    - rewrite norms_l1. eexists. split; [reflexivity|]. rewrite map_length. apply R.
    - rewrite (norms_l2 M n w R Hn).
      destruct (mapM_all (fun row : list A => sqrtv (dotp row row)) (fun _ => True) M) as (r & E & LE & _).
      + intros row _. destruct (ta_sqrt _ TA row) as [v Ev]. exists v. split; auto. rewrite <- Ev. f_equal.
        rewrite <- psum_sq. f_equal. clear. induction row as [|x row IH]; auto. cbn [zip_with map]. rewrite <- IH. reflexivity.
      + exists r. split; auto. rewrite LE. apply R.
    - rewrite norms_max.
      destruct (mapM_all (pymax (A:=A) gtb) (fun _ => True) M) as (r & E & LE & _).
      + intros row Hrow. destruct (pymax_ok row) as [v Ev]; [|exists v; auto]. intros ->. destruct R as [_ F]. rewrite Forall_forall in F.
        specialize (F _ Hrow). cbn in F. specialize (HM eq_refl). lia.
      + exists r. split; auto. rewrite LE. apply R.
  Qed.

  Lemma filter_key : forall (d : dict Z A) k v, NoDup (map fst d) -> In (k, v) d -> filter (fun kv => (fst kv =? k)%Z) d = [(k, v)].
  Proof.
    intros d k v. induction d as [|[k' v'] d IH]; intros N I; [destruct I|]. cbn [map fst] in N. inversion N as [|? ? N1 N2]; subst.
    cbn [filter fst]. destruct I as [I|I].
    - injection I as <- <-. rewrite Z.eqb_refl. f_equal. clear - N1. induction d as [|[k2 v2] d IH]; auto. cbn [filter fst].
      destruct (Z.eqb_spec k2 k') as [->|_]; [exfalso; apply N1; left; auto|]. apply IH. intro H. apply N1. right. exact H.
    - destruct (Z.eqb_spec k' k) as [->|_]; [exfalso; apply N1; apply (in_map fst) in I; exact I|]. apply IH; auto.
  Qed.
  Lemma values_of_mult : forall d : dict Z A, NoDup (map fst d) -> dvalues (mult_rows d d) = map (fun x => mul x x) (dvalues d).
  Proof.
    intros d N. rewrite mult_rows_items by auto. unfold prod_items, dvalues.
    assert (G : forall sub, incl sub d -> map snd (concat (map (fun kva => map (fun kvb => (fst kvb, mul (snd kva) (snd kvb)))
                          (filter (fun kvb => (fst kvb =? fst kva)%Z) d)) sub)) = map (fun x => mul x x) (map snd sub)).
    { induction sub as [|[k v] sub IH]; intros I; auto. cbn [map concat]. rewrite map_app, IH by (intros x Hx; apply I; right; auto).
      cbn [fst]. rewrite (filter_key d k v N) by (apply I; left; auto). reflexivity. }
    apply G. intros x Hx. exact Hx.
  Qed.
  Lemma sparse_list_ne : forall (rows : list (dict Z A)) sz dt, rows <> [] -> sparse_list rows sz dt = Ok (Sp rows sz dt).
  Proof. intros [|d rows] sz dt H; [congruence|]. reflexivity. Qed.
  Lemma mapM_mapM : forall {R S T} (f : R -> S) (g : S -> res T) l, mapM g (map f l) = mapM (fun x => g (f x)) l.
  Proof. intros. apply mapM_map. Qed.

  Lemma norms_sparse : forall nm (rows : list (dict Z A)) n w sz dt, 1 <= n -> length rows = n -> Forall (row_of w) rows -> In nm norm_names ->
    exists ns, norms_of (Sp rows sz dt) nm = Ok ns /\ length ns = n.
  Proof.
    intros nm rows n w sz dt Hn LR FR I. assert (NE : rows <> []) by (intros ->; cbn in LR; lia). destruct I as [<-|[<-|[<-|[]]]].
    - unfold norms_of. change (str_eqb (lit "l1") (lit "l1")) with true. cbn [issparse items bind].
      destruct (mapM_all (fun x : item A => v <- item_values x ;; Ok (psum (map absv v))) (fun _ => True) (map Di rows)) as (r & E & LE & _).
      + intros x Hx. apply in_map_iff in Hx. destruct Hx as (d & <- & _). eexists. split; [reflexivity|auto].
      + exists r. split; auto. rewrite LE, map_length. auto.
    - unfold norms_of. change (str_eqb (lit "l2") (lit "l1")) with false. change (str_eqb (lit "l2") (lit "l2")) with true. cbv iota.
      unfold row_norms, matmult_same_dim. cbn [issparse].
      assert (SH : exists s, shape (Sp rows sz dt) = Ok s /\ shp_eqb s s = true).
      { unfold shape. cbn [items bind]. destruct rows as [|d rows]; [cbn in LR; lia|]. cbn [map]. eexists. split; [reflexivity|].
        cbn [shp_eqb]. rewrite Z.eqb_refl. destruct sz; [rewrite Z.eqb_refl|]; reflexivity. }
      destruct SH as (s & ES & EQ). rewrite ES. cbn [bind]. rewrite EQ. cbn [guard bind Bool.eqb].
      assert (Z : zip_with mult_rows rows rows = map (fun d => mult_rows d d) rows).
      { clear. induction rows as [|d rows IH]; auto. cbn [zip_with map]. rewrite IH. reflexivity. }
      rewrite Z, sparse_list_ne by (destruct rows; [congruence|discriminate]). cbn [bind items]. rewrite map_map, mapM_map.
      destruct (mapM_all (fun d : dict BinNums.Z A => v <- item_values (Di (mult_rows d d)) ;; Ok (psum v)) (fun x => exists y, sqrtv x = Ok y) rows) as (r & E & LE & FE).
      + intros d Hd. cbn [item_values bind]. eexists. split; [reflexivity|]. rewrite Forall_forall in FR. rewrite values_of_mult by apply (FR d Hd). apply (ta_sqrt _ TA).
      + rewrite E. cbn [bind]. destruct (mapM_all (sqrtv (a:=A)) (fun _ => True) r) as (q & EQ' & LQ & _).
        * intros x Hx. rewrite Forall_forall in FE. destruct (FE x Hx) as [y Ey]. exists y. auto.
        * exists q. split; auto. lia.
    - unfold norms_of. change (str_eqb (lit "max") (lit "l1")) with false. change (str_eqb (lit "max") (lit "l2")) with false. cbv iota. cbn [issparse items bind].
      destruct (mapM_all (fun x : item A => v <- item_values x ;; pymax gtb (v ++ [zero])) (fun _ => True) (map Di rows)) as (r & E & LE & _).
      + intros x Hx. apply in_map_iff in Hx. destruct Hx as (d & <- & _). cbn [item_values bind]. destruct (pymax_ok (dvalues d ++ [zero])) as [v Ev]; [destruct (dvalues d); discriminate|]. exists v. auto.
      + exists r. split; auto. rewrite LE, map_length. auto.
  Qed.

  Lemma normalize_dense : forall nm (M : list (list A)) n w, 1 <= n -> rect M n w -> In nm norm_names -> (nm = lit "max" -> 1 <= w) ->
    exists D, normalize_pure (ll M) nm 1 = Ok (ll D) /\ rect D n w.
  Proof.
    intros nm M n w Hn R I HM. unfold normalize_pure, normalize_full. cbn [Z.eqb Pos.eqb andb negb guard bind orb].
    assert (G : mem str_eqb nm [lit "l1"; lit "l2"; lit "max"] = true) by (destruct I as [<-|[<-|[<-|[]]]]; reflexivity).
    rewrite G. cbn [guard bind]. rewrite check_ll by (apply (rows_ne M n w); auto). cbn [bind issparse ll andb negb guard].
    change (Arr (map Ls M)) with (ll M). destruct (norms_dense nm M n w Hn R I HM) as (ns & E & LN). rewrite E. cbn [bind].
    destruct (handle_zeros_ok ns) as [NZ LZ]. destruct (scale_rows_dense M n w (handle_zeros ns) R ltac:(lia) NZ) as (D & ED & RD). rewrite ED. cbn [bind fst]. eauto.
  Qed.
  Lemma normalize_sparse : forall nm (rows : list (dict Z A)) n w sz dt, 1 <= n -> length rows = n -> Forall (row_of w) rows -> In nm norm_names ->
    exists rows', normalize_pure (Sp rows sz dt) nm 1 = Ok (Sp rows' sz dt) /\ length rows' = n /\ Forall (row_of w) rows'.
  Proof.
    intros nm rows n w sz dt Hn LR FR I. unfold normalize_pure, normalize_full. cbn [Z.eqb Pos.eqb andb negb guard bind orb].
    assert (G : mem str_eqb nm [lit "l1"; lit "l2"; lit "max"] = true) by (destruct I as [<-|[<-|[<-|[]]]]; reflexivity).
    rewrite G. cbn [guard bind check_array issparse andb negb].
    destruct (norms_sparse nm rows n w sz dt Hn LR FR I) as (ns & E & LN). rewrite E. cbn [bind].
    destruct (handle_zeros_ok ns) as [NZ LZ]. destruct (scale_rows_sparse rows n w sz dt (handle_zeros ns) Hn LR FR ltac:(lia) NZ) as (D & ED & RD). rewrite ED. cbn [bind fst]. eauto.
  Qed.

  (** Scalers. *)
  Lemma div_row_ok : forall (sc row : list A), length row = length sc -> nonzero sc -> exists r, div_row sc (Ls row) = Ok r /\ length r = length sc.
  Proof.
    intros sc row LR NZ. unfold div_row.
    destruct (mapM_all (fun i => v <- item_get (Ls row) (Z.of_nat i) ;; s <- lnth sc i ;; div v s) (fun _ => True) (range (length sc))) as (r & E & LE & _).
    - intros i Hi. apply in_seq in Hi. cbn [item_get]. destruct (lget_in_range row (Z.of_nat i)) as (v & -> & _); [lia|]. cbn [bind].
      destruct (nth_in_range sc i) as (s & -> & Is); [lia|]. cbn [bind]. destruct (ta_div _ TA v s (nonzero_in _ _ NZ Is)) as [q E]. eauto.
    - exists r. split; auto. unfold range in LE. rewrite seq_length in LE. auto.
  Qed.
  Lemma std_dense : forall (s : std_scaler A) (M : list (list A)) n w, 1 <= n -> rect M n w ->
    (ss_mean_on s = true -> exists mean, ss_mean s = Some mean /\ length mean = w) ->
    (ss_std_on s = true -> exists sc, ss_scale s = Some sc /\ length sc = w /\ nonzero sc) ->
    exists D, std_transform s (ll M) = Ok (ll D) /\ rect D n w.
  Proof.
    intros s M n w Hn R HM HS. unfold std_transform. rewrite check_ll by (apply (rows_ne M n w); auto). cbn [bind]. unfold ll at 1.
    assert (P1 : exists M1, (if ss_mean_on s then
                 l <- items (ll M) ;;
                 M0 <- mapM (fun x =>
                              mean <- not_none (ss_mean s) ;;
                              mapM (fun i => v <- item_get x (Z.of_nat i) ;; m <- lnth mean i ;;
                                             Ok (sub v m)) (range (List.length mean))) l ;;
                 Ok (ll M0)
               else Ok (ll M)) = Ok (ll M1) /\ rect M1 n w).
    { destruct (ss_mean_on s); [|eauto]. destruct (HM eq_refl) as (mean & -> & LM). cbn [items ll bind not_none]. rewrite mapM_map.
      destruct (mapM_all (fun row : list A => mapM (fun i => v <- item_get (Ls row) (Z.of_nat i) ;; m <- lnth mean i ;; Ok (sub v m)) (range (length mean))) (fun r : list A => length r = w) M) as (D & E & LD & FD).
      - intros row Hrow. destruct R as [_ F]. rewrite Forall_forall in F. specialize (F _ Hrow).
        destruct (mapM_all (fun i => v <- item_get (Ls row) (Z.of_nat i) ;; m <- lnth mean i ;; Ok (sub v m)) (fun _ => True) (range (length mean))) as (r & E & LE & _).
        + intros i Hi. apply in_seq in Hi. cbn [item_get]. destruct (lget_in_range row (Z.of_nat i)) as (v & -> & _); [lia|]. cbn [bind].
          destruct (nth_in_range mean i) as (mi & -> & _); [lia|]. cbn [bind]. eauto.
        + exists r. split; auto. unfold range in LE. rewrite seq_length in LE. lia.
      - rewrite E. cbn [bind]. exists D. split; auto. split; auto. rewrite LD. apply R. }
    destruct P1 as (M1 & E1 & R1). cbn [bind]. cbn [ll] in E1. cbn [bind] in E1. change (Arr (map Ls M)) with (ll M). change (Arr (map Ls M)) with (ll M) in E1.
    match goal with |- exists D, bind ?x _ = _ /\ _ => replace x with (@Ok (arr A) (ll M1)) by (symmetry; exact E1) end. cbn [bind].
    destruct (ss_std_on s); [|eauto]. destruct (HS eq_refl) as (sc & -> & LS & NZ). cbn [items ll bind not_none]. rewrite mapM_map.
    destruct (mapM_all (fun row : list A => div_row sc (Ls row)) (fun r : list A => length r = w) M1) as (D & E & LD & FD).
    - intros row Hrow. destruct R1 as [_ F]. rewrite Forall_forall in F. destruct (div_row_ok sc row) as (r & E & LR); [rewrite (F _ Hrow); auto|auto|]. exists r. split; auto. lia.
    - rewrite E. cbn [bind]. exists D. split; auto. split; auto. rewrite LD. apply R1.
  Qed.
  Lemma div_cells_ok : forall (sc : list A) w d, length sc = w -> nonzero sc -> row_of w d -> exists d', div_cells sc d = Ok d' /\ row_of w d'.
  Proof.
    intros sc w d LS NZ H. unfold div_cells. destruct (dmapM_keys (fun k v => s <- lget sc k ;; div v s) d) as (d' & E & K).
    - intros k v Hkv. destruct (lget_in_range sc k) as (s & -> & Is); [rewrite LS; apply H; apply (in_map fst) in Hkv; exact Hkv|]. cbn [bind]. apply (ta_div _ TA), (nonzero_in _ _ NZ Is).
    - exists d'. split; auto. apply (row_keys w d); auto.
  Qed.
  Lemma std_sparse : forall (s : std_scaler A) (rows : list (dict Z A)) n w sz dt, 1 <= n -> length rows = n -> Forall (row_of w) rows ->
    ss_mean_on s = false -> match ss_scale s with None => True | Some sc => length sc = w /\ nonzero sc end ->
    exists rows', std_transform s (Sp rows sz dt) = Ok (Sp rows' sz dt) /\ length rows' = n /\ Forall (row_of w) rows' /\ (ss_scale s = None -> rows' = rows).
  Proof.
    intros s rows n w sz dt Hn LR FR HM HS. unfold std_transform. cbn [check_array bind]. rewrite HM. cbn [negb guard bind].
    destruct (ss_scale s) as [sc|]; [|exists rows; auto]. destruct HS as [LS NZ].
    destruct (mapM_all (div_cells sc) (row_of w) rows) as (D & E & LD & FD).
    - intros d Hd. rewrite Forall_forall in FR. apply div_cells_ok; auto.
    - rewrite E. cbn [bind]. rewrite sparse_list_ne by (intros ->; cbn in LD; lia). exists D. repeat split; auto; [lia|discriminate].
  Qed.
  Lemma minmax_dense_ok : forall (sc mn : list A) (M : list (list A)) n w, 1 <= n -> rect M n w -> length sc = w -> length mn = w ->
    exists D, minmax_transform {| mm_scale := Some sc; mm_min := Some mn |} (ll M) = Ok (ll D) /\ rect D n w.
  Proof.
    intros sc mn M n w Hn R LS LM. unfold minmax_transform. cbn [issparse ll]. change (Arr (map Ls M)) with (ll M). rewrite check_ll by (apply (rows_ne M n w); auto).
    cbn [bind items ll mm_scale mm_min not_none]. rewrite mapM_map.
    destruct (mapM_all (fun row : list A => mapM (fun i => v <- item_get (Ls row) (Z.of_nat i) ;; c <- lnth sc i ;; m <- lnth mn i ;; Ok (add (mul v c) m)) (range (length sc))) (fun r : list A => length r = w) M) as (D & E & LD & FD).
    - intros row Hrow. destruct R as [_ F]. rewrite Forall_forall in F. specialize (F _ Hrow).
      destruct (mapM_all (fun i => v <- item_get (Ls row) (Z.of_nat i) ;; c <- lnth sc i ;; m <- lnth mn i ;; Ok (add (mul v c) m)) (fun _ => True) (range (length sc))) as (r & E & LE & _).
      + intros i Hi. apply in_seq in Hi. cbn [item_get]. destruct (lget_in_range row (Z.of_nat i)) as (v & -> & _); [lia|]. cbn [bind].
        destruct (nth_in_range sc i) as (c & -> & _); [lia|]. cbn [bind]. destruct (nth_in_range mn i) as (b & -> & _); [lia|]. cbn [bind]. eauto.
      + exists r. split; auto. unfold range in LE. rewrite seq_length in LE. lia.
    - rewrite E. cbn [bind]. exists D. split; auto. split; auto. rewrite LD. apply R.
  Qed.
  Lemma maxabs_dense_ok : forall (sc : list A) (M : list (list A)) n w, 1 <= n -> rect M n w -> length sc = w -> nonzero sc ->
    exists D, maxabs_transform (Some sc) (ll M) = Ok (ll D) /\ rect D n w.
  Proof.
    intros sc M n w Hn R LS NZ. unfold maxabs_transform. rewrite check_ll by (apply (rows_ne M n w); auto). cbn [bind items ll not_none]. rewrite mapM_map.
    destruct (mapM_all (fun row : list A => div_row sc (Ls row)) (fun r : list A => length r = w) M) as (D & E & LD & FD).
    - intros row Hrow. destruct R as [_ F]. rewrite Forall_forall in F. destruct (div_row_ok sc row) as (r & E & LR); [rewrite (F _ Hrow); auto|auto|]. exists r. split; auto. lia.
    - rewrite E. cbn [bind]. exists D. split; auto. split; auto. rewrite LD. apply R.
  Qed.
  Lemma maxabs_sparse_ok : forall (sc : list A) (rows : list (dict Z A)) n w sz dt, 1 <= n -> length rows = n -> Forall (row_of w) rows -> length sc = w -> nonzero sc ->
    exists rows', maxabs_transform (Some sc) (Sp rows sz dt) = Ok (Sp rows' sz dt) /\ length rows' = n /\ Forall (row_of w) rows'.
  Proof.
    intros sc rows n w sz dt Hn LR FR LS NZ. unfold maxabs_transform. cbn [check_array bind not_none].
    destruct (mapM_all (dmapM (fun k v => s <- lget sc k ;; div v s)) (row_of w) rows) as (D & E & LD & FD).
    - intros d Hd. rewrite Forall_forall in FR. apply (div_cells_ok sc w d); auto.
    - rewrite E. cbn [bind]. rewrite sparse_list_ne by (intros ->; cbn in LD; lia). exists D. repeat split; auto; lia.
  Qed.

  (** MissingIndicator and SimpleImputer. *)
  Lemma indicator_ok : forall (t : indicator A) (M : list (list A)) n w k, 1 <= n -> rect M n w -> flags t w k ->
    exists D, indicator_transform t (ll M) = Ok D /\ rect D n k.
  Proof.
    intros t M n w k Hn R F. destruct F as [t w HF HN|t w fs HF HN HE HC HT].
    - rewrite (ind_all t M n w zero R Hn HF HN). eexists. split; [reflexivity|]. split; [rewrite map_length; apply R|].
      apply Forall_forall. intros r Hr. apply in_map_iff in Hr. destruct Hr as (row & <- & _). rewrite map_length, seq_length. auto.
    - rewrite (ind_only t M n w fs zero R Hn HF HN HC HT), HE. cbn [andb negb guard bind]. eexists. split; [reflexivity|]. split; [rewrite map_length; apply R|].
      apply Forall_forall. intros r Hr. apply in_map_iff in Hr. destruct Hr as (row & <- & _). rewrite map_length. auto.
  Qed.

  Lemma imp_rows_rect : forall (s : imputer A) ks d (M : list (list A)) n w, rect M n w -> rect (imp_rows s ks d M) n (length ks).
  Proof.
    intros s ks d M n w [LM _]. unfold imp_rows. split; [rewrite map_length; auto|]. apply Forall_forall. intros r Hr. apply in_map_iff in Hr.
    destruct Hr as (row & <- & _). apply map_length.
  Qed.
  Lemma zip_app_rect : forall n (P I : list (list A)) a b, rect P n a -> rect I n b -> rect (zip_with (@app A) P I) n (a + b).
  Proof.
    induction n as [|n IH]; intros [|p P] [|i I] a b [LP FP] [LI FI]; cbn [length] in *; try lia; [split; [reflexivity|constructor]|].
    inversion FP; inversion FI; subst. cbn [zip_with]. destruct (IH P I (length p) (length i)) as [L F]; [split; auto; lia|split; auto; lia|].
    split; [cbn [length]; lia|]. constructor; auto. apply app_length.
  Qed.
  Lemma imputer_plain : forall (s : imputer A) (M : list (list A)) n w ks, 1 <= n -> rect M n w -> si_add s = false -> length (si_stats s) = w -> 1 <= w ->
    kept (str_eqb (si_strategy s) (lit "constant")) (si_stats s) ks -> exists D, imputer_transform s (ll M) = Ok D /\ rect D n (length ks).
  Proof.
    intros s M n w ks Hn R HA HS Hw HK. pose proof (imputer_ok s M n w ks zero [] R Hn Hw HS HK) as Q. rewrite HA in Q. rewrite (Q eq_refl).
    eexists. split; [reflexivity|]. apply (imp_rows_rect s ks zero M n w R).
  Qed.
  Lemma imputer_marked : forall (s : imputer A) (M : list (list A)) n w ks t k, 1 <= n -> rect M n w -> si_add s = true -> si_indicator s = Some t -> flags t w k ->
    length (si_stats s) = w -> 1 <= w ->
    kept (str_eqb (si_strategy s) (lit "constant")) (si_stats s) ks -> exists D, imputer_transform s (ll M) = Ok D /\ rect D n (length ks + k).
  Proof.
    intros s M n w ks t k Hn R HA HI HF HS Hw HK. destruct (indicator_ok t M n w k Hn R HF) as (I & EI & RI).
    pose proof (imputer_ok s M n w ks zero I R Hn Hw HS HK) as Q. rewrite HA in Q. rewrite Q by (exists t; repeat split; auto; apply RI).
    eexists. split; [reflexivity|]. apply zip_app_rect; auto. apply (imp_rows_rect s ks zero M n w R).
  Qed.
End Numeric.
