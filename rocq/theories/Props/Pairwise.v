(** C59-C61: cosine similarity, cosine distance, linear kernel. *)
From Coq Require Import String Reals Lia Lra.
From Flocq Require Import Core BinarySingleNaN.
From Verif Require Import Model.Py Model.Arith Model.F64 Model.XR Model.Utils Model.Base Model.Preprocessing Model.Pairwise.
From Verif Require Import Spec.Matrix Spec.Ensembles Spec.Reals Spec.Scaling Spec.Pairwise.
From Verif Require Import Proofs.Lib Proofs.Laws Proofs.Round Proofs.RealLib Proofs.Arrays Proofs.Arrays2 Proofs.Ensemble Proofs.Impute Proofs.Scaling Proofs.Pairwise.
From Verif Require Import Props.Arrays Props.Scaling.
From Verif Require Props.Text.
Local Open Scope nat_scope.

(** C61.  The linear kernel is the table of dot products, in any arithmetic. *)
Theorem C61_dense : forall (A : arith) (X Y : list (list A)) r s k, rect X r k -> rect Y s k -> 1 <= r -> 1 <= s ->
  linear_kernel (ll X) (YOther (ll Y)) = Ok (table dotp X Y) /\
  linear_kernel (ll X) YNone = Ok (table dotp X X) /\ linear_kernel (ll X) YSame = Ok (table dotp X X).
Proof.
  intros A X Y r s k RX RY Hr Hs. unfold linear_kernel. rewrite (check_pw_ll X Y r s k k) by auto. rewrite Nat.eqb_refl. cbn [bind]. rewrite !dense_rows_ll. cbn [bind]. rewrite dot_2d_ll.
  rewrite !(check_pw_self X r k) by auto. cbn [bind]. rewrite !dense_rows_ll. cbn [bind]. rewrite dot_2d_ll. auto.
Qed.
Print Assumptions C61_dense.
(** Sparse X gives the same table, bit for bit, when Y is finite. *)
Theorem C61_sparse : forall (m : libm) (X Y : list (list (F64 m))) rows dt r s k,
  rect X r k -> rect Y s k -> 1 <= r -> 1 <= s -> Forall2 stores_sorted rows X -> Forall (Forall finite) Y ->
  linear_kernel (Sp rows (Some (Z.of_nat k)) dt) (YOther (ll Y)) = Ok (table dotp X Y).
Proof.
  intros m X Y rows dt r s k RX RY Hr Hs ST FY. unfold linear_kernel.
  assert (NR : rows <> []) by (apply Forall2_len in ST; destruct RX as [LX _]; destruct rows; [cbn [length] in ST; lia|discriminate]).
  rewrite (check_pw_sp rows dt Y s k) by auto. cbn [bind]. rewrite dense_rows_ll. cbn [bind]. unfold dot_2d. cbn [items bind]. rewrite mapM_map.
  apply mapM_Forall2. apply Forall2_map_r. apply (Forall2_imp (fun d row => stores_sorted d row /\ length row = k)).
  - intros d row [S L]. destruct (C02_dot_agree m d row Y S) as [E1 E2]; [|rewrite E1; exact E2].
    apply Forall_forall. intros b Hb. split; [transitivity k; [apply (rect_row _ _ _ _ RY Hb)|auto]|]. rewrite Forall_forall in FY. eapply Forall_impl; [|apply (FY b Hb)]. intros x Hx. apply f_finite_iff. exact Hx.
  - apply Forall2_nth_error. apply Forall2_nth_error in ST. destruct ST as [L ST]. split; auto. intros i d row Hd Hrow. split; [eapply ST; eauto|]. apply (rect_row _ _ _ _ RX). eapply nth_error_In; eauto.
Qed.
Print Assumptions C61_sparse.
(** Errors common to the three functions. *)
Theorem C61_refused : forall (A : arith) (X Y : list (list A)) rows dt r s k k', rect X r k -> rect Y s k' -> 1 <= r -> 1 <= s -> rows <> [] ->
  (k <> k' -> linear_kernel (ll X) (YOther (ll Y)) = Err ValueError) /\
  linear_kernel (ll X) (YOther (Sp rows (Some (Z.of_nat k)) dt)) = Err ValueError /\
  linear_kernel (Sp rows (Some (Z.of_nat k)) dt) YNone = Err ValueError.
Proof.
  intros A X Y rows dt r s k k' RX RY Hr Hs NR. unfold linear_kernel. split; [intro N; rewrite (check_pw_ll X Y r s k k') by auto; destruct (Nat.eqb_spec k k'); [congruence|auto]|].
  unfold check_pairwise. cbn [y_of]. rewrite (ndim_ll X r k), (shape1_ll X r k) by auto. rewrite ndim_sp, shape1_sp by auto. cbn [bind Nat.eqb guard oz_eqb]. rewrite Z.eqb_refl. auto.
Qed.
Print Assumptions C61_refused.
Example C61_ex : forall m : libm, rect [[ofZ 1; ofZ 2]; [ofZ 3; ofZ 4 : F64 m]] 2 2 /\
  match linear_kernel (ll [[ofZ 1; ofZ 2]; [ofZ 3; ofZ 4 : F64 m]]) (YOther (ll [[ofZ 5; ofZ 6]])) with Ok K => map (map toZ) K | _ => [] end = [[Ok 17%Z]; [Ok 39%Z]].
Proof. intro m. split; [split; [reflexivity|repeat constructor]|]. vm_compute. reflexivity. Qed.

(** C59.  What is computed, bit for bit: the table of dot products of the rows
    divided by their norms.  The call succeeds exactly when the norms and
    quotients exist. *)
Theorem C59_value : forall (m : libm) (X Y : list (list (F64 m))) r s k, rect X r k -> rect Y s k -> 1 <= r -> 1 <= s -> forall K,
  cosine_similarity (ll X) (YOther (ll Y)) = Ok K <-> exists DX DY, l2_normalised X DX /\ l2_normalised Y DY /\ K = table dotp DX DY.
Proof.
  intros m X Y r s k RX RY Hr Hs K. unfold cosine_similarity. rewrite (check_pw_ll X Y r s k k) by auto. rewrite Nat.eqb_refl. cbn [bind]. split.
  - intro H. inv_bind H. inv_bind H. apply (C30_l2 m X r k RX Hr) in E. apply (C30_l2 m Y s k RY Hs) in E0. destruct E as (DX & -> & HX), E0 as (DY & -> & HY).
    rewrite dense_rows_ll in H. cbn [bind] in H. rewrite dot_2d_ll in H. injection H as <-. exists DX, DY. auto.
  - intros (DX & DY & HX & HY & ->). rewrite (proj2 (C30_l2 m X r k RX Hr (ll DX)) (ex_intro _ DX (conj eq_refl HX))). cbn [bind].
    rewrite (proj2 (C30_l2 m Y s k RY Hs (ll DY)) (ex_intro _ DY (conj eq_refl HY))). cbn [bind]. rewrite dense_rows_ll. cbn [bind]. apply dot_2d_ll.
Qed.
Print Assumptions C59_value.
Theorem C59_self : forall (m : libm) (X : list (list (F64 m))) r k Y, rect X r k -> 1 <= r -> Y = YNone \/ Y = YSame -> forall K,
  cosine_similarity (ll X) Y = Ok K <-> exists DX, l2_normalised X DX /\ K = table dotp DX DX.
Proof.
  intros m X r k Y RX Hr HY K. unfold cosine_similarity. rewrite (check_pw_self X r k) by auto. cbn [bind]. split.
  - intro H. inv_bind H. apply (C30_l2 m X r k RX Hr) in E. destruct E as (DX & -> & HX). destruct HY as [-> | ->]; cbn [bind] in H; rewrite dense_rows_ll in H; cbn [bind] in H; rewrite dot_2d_ll in H; injection H as <-; eauto.
  - intros (DX & HX & ->). rewrite (proj2 (C30_l2 m X r k RX Hr (ll DX)) (ex_intro _ DX (conj eq_refl HX))). cbn [bind]. destruct HY as [-> | ->]; cbn [bind]; rewrite dense_rows_ll; cbn [bind]; apply dot_2d_ll.
Qed.
Print Assumptions C59_self.
(** Data without NaN always has a result. *)
Theorem C59_total : forall (m : libm) (X Y : list (list (F64 m))) r s k, rect X r k -> rect Y s k -> 1 <= r -> 1 <= s ->
  Forall (Forall (fun x => isnan x = false)) X -> Forall (Forall (fun x => isnan x = false)) Y ->
  exists K, cosine_similarity (ll X) (YOther (ll Y)) = Ok K /\ rect K r s.
Proof.
  intros m X Y r s k RX RY Hr Hs NX NY.
  assert (Q : forall (M : list (list (F64 m))) q, rect M q k -> 1 <= q -> Forall (Forall (fun x => isnan x = false)) M -> exists D, l2_normalised M D /\ length D = q).
  { intros M q RM Hq NM. destruct (l2_norms m M NM) as (ns & E & P).
    destruct (normalize_both m (lit "l2") M ns) as (D & ED & LD & _ & _).
    - right; left; auto.
    - destruct RM as [L _]. destruct M; [cbn [length] in L; lia|discriminate].
    - rewrite (norms_l2 M q k RM Hq). exact E.
    - apply (mapM_length _ _ _ E).
    - eapply Forall_impl; [|exact P]. intros n Hn. apply hz_ok. exact Hn.
    - apply (C30_l2 m M q k RM Hq) in ED. destruct ED as (D' & ED & HD). apply ll_inj in ED. subst D'. exists D. split; auto. destruct RM as [L _]. congruence. }
  destruct (Q X r RX Hr NX) as (DX & HX & LX), (Q Y s RY Hs NY) as (DY & HY & LY). exists (table dotp DX DY). split; [apply (C59_value m X Y r s k); auto; eauto|].
  rewrite <- LX, <- LY. apply table_rect.
Qed.
Print Assumptions C59_total.
(** Comparing a matrix with itself: symmetric, bit for bit. *)
Theorem C59_symmetric : forall (m : libm) (X : list (list (F64 m))) r k Y K, rect X r k -> 1 <= r -> Y = YNone \/ Y = YSame ->
  cosine_similarity (ll X) Y = Ok K -> rect K r r /\ forall i j, cell K i j = cell K j i.
Proof.
  intros m X r k Y K RX Hr HY H. apply (C59_self m X r k Y RX Hr HY) in H. destruct H as (DX & HX & ->). apply Forall2_len in HX. split.
  - destruct RX as [L _]. rewrite <- L, HX. apply table_rect.
  - intros i j. rewrite !table_cell. destruct (nth_error DX i), (nth_error DX j); auto. f_equal. apply (dotp_comm (F64_ok m)).
Qed.
Print Assumptions C59_symmetric.
(** A zero row has similarity exactly 0 with everything, when the rows of Y
    have finite normalised entries. *)
Theorem C59_zero_row : forall (m : libm) (X Y DY : list (list (F64 m))) r s k K i j x, rect X r k -> rect Y s k -> 1 <= r -> 1 <= s ->
  cosine_similarity (ll X) (YOther (ll Y)) = Ok K -> l2_normalised Y DY -> Forall (Forall finite) DY ->
  nth_error X i = Some x -> Forall is0 x -> j < s -> cell K i j = Some zero.
Proof.
  intros m X Y DY r s k K i j x RX RY Hr Hs H HY FY Hi Z Hj. apply (C59_value m X Y r s k RX RY Hr Hs) in H. destruct H as (DX & DY' & HX & HY' & ->).
  assert (E : DY' = DY).
  { assert (Q : ll DY' = ll DY). { pose proof (proj2 (C30_l2 m Y s k RY Hs (ll DY)) (ex_intro _ DY (conj eq_refl HY))) as Q1. pose proof (proj2 (C30_l2 m Y s k RY Hs (ll DY')) (ex_intro _ DY' (conj eq_refl HY'))) as Q2. congruence. } apply ll_inj in Q. auto. }
  subst DY'. rewrite table_cell. apply Forall2_nth_error in HX. destruct HX as [LX HX]. destruct (nth_error_len DX X i x (eq_sym LX) Hi) as [d Hd]. rewrite Hd.
  destruct (nth_error DY j) as [y|] eqn:Ey; [|apply nth_error_None in Ey; apply Forall2_len in HY; destruct RY; lia]. f_equal.
  destruct (HX i x d Hi Hd) as (n & En & Q).
  assert (DP : forall u v : list (F64 m), Forall is0 u -> Forall finite v -> dotp u v = zero).
  { intros u v Hu Hv. unfold dotp. revert v Hv. induction Hu as [|a u Ha Hu IH]; intros [|b v] Hv; auto. inversion Hv; subst. cbn [combine fold_left fst snd].
    rewrite (a_absorb _ (F64_ok m) zero (mul a b)); [apply IH; auto|apply (a_clean0 _ (F64_ok m))|apply (a_mul_zero _ (F64_ok m)); auto]. }
  apply DP; [|rewrite Forall_forall in FY; apply FY; eapply nth_error_In; eauto].
  assert (S0 : dotp x x = zero).
  { apply DP; auto. eapply Forall_impl; [|exact Z]. intros a Ha. apply f_finite_iff. apply f_eqb_zero in Ha. destruct Ha as [sg ->]. reflexivity. }
  rewrite S0 in En. assert (N0 : n = zero) by (change (Ok (zero : F64 m) = Ok n) in En; congruence). subst n.
  unfold divided_by in Q. change (eqb (zero : F64 m) zero) with true in Q. cbv iota in Q. clear -Q Z. induction Q as [|a b x d E Q IH]; constructor; inversion Z as [|? ? Z1 Z2]; subst; auto.
  apply f_eqb_zero in Z1. destruct Z1 as [sg ->]. destruct sg; vm_compute in E; injection E as <-; reflexivity.
Qed.
Print Assumptions C59_zero_row.

(** Exact arithmetic: the cosines, which lie in [-1, 1]; a non-zero row has
    similarity 1 with itself, a zero row 0 with any. *)
Theorem C59_exact : forall (X Y : list (list R)) r s k, rect X r k -> rect Y s k -> 1 <= r -> 1 <= s ->
  cosine_similarity (ll (finss X)) (YOther (ll (finss Y))) = Ok (finss (table Rcos X Y)) /\
  cosine_similarity (ll (finss X)) YNone = Ok (finss (table Rcos X X)).
Proof.
  intros X Y r s k RX RY Hr Hs.
  assert (NX : X <> []) by (destruct RX as [L _]; destruct X; [cbn [length] in L; lia|discriminate]). assert (NY : Y <> []) by (destruct RY as [L _]; destruct Y; [cbn [length] in L; lia|discriminate]).
  assert (T : forall A B, dot_2d (A:=XR) (ll (finss (map (unitise Rl2) A))) (finss (map (unitise Rl2) B)) = Ok (finss (table Rcos A B))).
  { intros A B. rewrite dot_2d_ll. f_equal. unfold table, finss. rewrite !map_map. apply map_ext. intro a. unfold fins at 3. rewrite !map_map. apply map_ext. intro b. rewrite dotp_fins, Rdot_unitise. auto. }
  assert (EX : normalize_pure (ll (finss X)) (lit "l2") 1 = Ok (ll (finss (map (unitise Rl2) X)))) by (apply normalize_XR; auto; [right; left; auto|apply (norms_l2_XR X r k); auto]).
  assert (EY : normalize_pure (ll (finss Y)) (lit "l2") 1 = Ok (ll (finss (map (unitise Rl2) Y)))) by (apply normalize_XR; auto; [right; left; auto|apply (norms_l2_XR Y s k); auto]).
  unfold cosine_similarity. rewrite (check_pw_ll (A:=XR) (finss X) (finss Y) r s k k) by (auto; apply rect_finss; auto). rewrite (check_pw_self (A:=XR) (finss X) r k) by (auto; apply rect_finss; auto). rewrite Nat.eqb_refl. cbn [bind]. rewrite EX, EY. cbn [bind]. rewrite !dense_rows_ll. cbn [bind]. rewrite !T. auto.
Qed.
Print Assumptions C59_exact.
Theorem C59_cosine : forall x y : list R, (-1 <= Rcos x y <= 1)%R /\ (Rl2 x <> 0%R -> Rcos x x = 1%R) /\ (Rl2 x = 0%R -> Rcos x y = 0%R /\ Rcos y x = 0%R).
Proof.
  intros x y. split; [apply Rcos_bound|]. split.
  - intro H. unfold Rcos. destruct (Req_EM_T (Rl2 x) 0); [contradiction|]. rewrite Rl2_sq. apply Rinv_r. rewrite <- Rl2_sq. intro E. apply Rmult_integral in E. tauto.
  - intro H. unfold Rcos. rewrite H. destruct (Req_EM_T 0 0); [|congruence]. split; auto. destruct (Req_EM_T (Rl2 y) 0); auto.
Qed.
Print Assumptions C59_cosine.
(** Sparse X agrees with dense X bit for bit. *)
Theorem C59_sparse : forall (m : libm) (X Y DY : list (list (F64 m))) rows dt r s k, rect X r k -> rect Y s k -> 1 <= r -> 1 <= s ->
  Forall2 stores_sorted rows X -> Forall (Forall (fun x => isnan x = false)) X -> l2_normalised Y DY -> Forall (Forall finite) DY ->
  cosine_similarity (Sp rows (Some (Z.of_nat k)) dt) (YOther (ll Y)) = cosine_similarity (ll X) (YOther (ll Y)).
Proof.
  intros m X Y DY rows dt r s k RX RY Hr Hs ST NX HY FY. unfold cosine_similarity.
  assert (NR : rows <> []) by (apply Forall2_len in ST; destruct RX as [LX _]; destruct rows; [cbn [length] in ST; lia|discriminate]).
  rewrite (check_pw_sp rows dt Y s k) by auto. rewrite (check_pw_ll X Y r s k k) by auto. rewrite Nat.eqb_refl. cbn [bind].
  destruct (C30_sparse m (lit "l2") rows (Some (Z.of_nat k)) dt X r k (or_intror eq_refl) RX Hr NX ST) as (D & rows' & ED & ES & SD & K). rewrite ED, ES. cbn [bind].
  rewrite (proj2 (C30_l2 m Y s k RY Hs (ll DY)) (ex_intro _ DY (conj eq_refl HY))). cbn [bind]. rewrite dense_rows_ll. cbn [bind]. rewrite dot_2d_ll.
  unfold dot_2d. cbn [items bind]. rewrite mapM_map. apply mapM_Forall2. apply Forall2_map_r.
  apply (C30_l2 m X r k RX Hr) in ED. destruct ED as (D' & ED & HD). apply ll_inj in ED. subst D'.
  apply Forall2_nth_error. apply Forall2_nth_error in SD. destruct SD as [L SD]. split; auto. intros i d row Hd Hrow.
  assert (SS : stores_sorted d row).
  { split; [eapply SD; eauto|]. destruct (Props.Text.keys_nth _ _ _ i d K Hd) as (d0 & E0 & ->). apply Forall2_nth_error in ST. destruct ST as [L0 ST]. destruct (nth_error_len X rows i d0 (eq_sym L0) E0) as [x0 Hx0]. apply (ST i d0 x0 E0 Hx0). }
  destruct (C02_dot_agree m d row DY SS) as [E1 E2]; [|rewrite E1; exact E2].
  apply Forall2_nth_error in HD. destruct HD as [LD HD]. destruct (nth_error_len X D i row LD Hrow) as [x Hx]. destruct (HD i x row Hx Hrow) as (n & _ & Q). apply Forall2_len in Q.
  rewrite (rect_row _ _ _ _ RX (nth_error_In _ _ Hx)) in Q. apply Forall_forall. intros b Hb. split.
  - rewrite <- Q. apply In_nth_error in Hb. destruct Hb as [j Hj]. apply Forall2_nth_error in HY. destruct HY as [LY HY]. destruct (nth_error_len Y DY j b LY Hj) as [y Hy]. destruct (HY j y b Hy Hj) as (n' & _ & Q'). apply Forall2_len in Q'. rewrite (rect_row _ _ _ _ RY (nth_error_In _ _ Hy)) in Q'. auto.
  - rewrite Forall_forall in FY. eapply Forall_impl; [|apply (FY b Hb)]. intros z Hz. apply f_finite_iff. exact Hz.
Qed.
Print Assumptions C59_sparse.
Theorem C59_refused : forall (A : arith) (X Y : list (list A)) rows dt r s k k', rect X r k -> rect Y s k' -> 1 <= r -> 1 <= s -> rows <> [] ->
  (k <> k' -> cosine_similarity (ll X) (YOther (ll Y)) = Err ValueError) /\
  cosine_similarity (ll X) (YOther (Sp rows (Some (Z.of_nat k)) dt)) = Err ValueError /\
  cosine_similarity (Sp rows (Some (Z.of_nat k)) dt) YNone = Err ValueError.
Proof.
  intros A X Y rows dt r s k k' RX RY Hr Hs NR. unfold cosine_similarity. split; [intro N; rewrite (check_pw_ll X Y r s k k') by auto; destruct (Nat.eqb_spec k k'); [congruence|auto]|].
  unfold check_pairwise. cbn [y_of]. rewrite (ndim_ll X r k), (shape1_ll X r k) by auto. rewrite ndim_sp, shape1_sp by auto. cbn [bind Nat.eqb guard oz_eqb]. rewrite Z.eqb_refl. auto.
Qed.
Print Assumptions C59_refused.
Example C59_ex : forall m : libm,
  match cosine_similarity (ll [[ofZ 0; ofZ 3]; [ofZ (-5); ofZ 0]; [zero; zero : F64 m]]) YNone with Ok K => map (map toZ) K | _ => [] end =
  [[Ok 1; Ok 0; Ok 0]; [Ok 0; Ok 1; Ok 0]; [Ok 0; Ok 0; Ok 0]]%Z.
Proof. intro m. vm_compute. reflexivity. Qed.

(** C60.  The distances are 1 - similarity brought into [0, 2], cell by cell;
    comparing a matrix with itself the diagonal is exactly 0. *)
Theorem C60_value : forall (m : libm) (X Y : list (list (F64 m))) r s k, rect X r k -> rect Y s k -> 1 <= r -> 1 <= s -> forall D,
  cosine_distances (ll X) (YOther (ll Y)) = Ok D <->
  exists K, cosine_similarity (ll X) (YOther (ll Y)) = Ok K /\ Forall2 (Forall2 clipped) K D.
Proof.
  intros m X Y r s k RX RY Hr Hs D. unfold cosine_distances.
  assert (P : forall K : list (list (F64 m)), apply_2d (ll K) (fun x => Ok (pw_clip (add (opp x) one) zero (ofZ 2))) = Ok (map (map (fun x => pw_clip (add (opp x) one) zero (ofZ 2))) K)).
  { intro K. rewrite apply_2d_ll. apply (mapM_pure _ (map (fun x => pw_clip (add (opp x) one) zero (ofZ 2)))). intros row _. apply mapM_Ok. }
  assert (C : forall s d : F64 m, clipped s d <-> d = pw_clip (add (opp s) one) zero (ofZ 2)).
  { intros s0 d. unfold clipped, pw_clip, gtb. cbv zeta. destruct (ltb (add (opp s0) one) zero); [|destruct (ltb (ofZ 2) (add (opp s0) one))]; intuition congruence. }
  split.
  - intro H. inv_bind H. rewrite P in H. cbn [bind] in H. injection H as <-. exists a. split; auto. apply Forall2_map_r, Forall2_diag. intros row _. apply Forall2_map_r, Forall2_diag. intros x _. apply C. auto.
  - intros (K & -> & H). cbn [bind]. rewrite P. cbn [bind]. f_equal. induction H as [|a b K D E H IH]; auto. cbn [map]. f_equal; auto. clear -E C. induction E as [|x y a b Q E IH]; auto. cbn [map]. f_equal; auto. symmetry. apply C. auto.
Qed.
Print Assumptions C60_value.
Theorem C60_self : forall (m : libm) (X : list (list (F64 m))) r k Y D, rect X r k -> 1 <= r -> Y = YNone \/ Y = YSame ->
  cosine_distances (ll X) Y = Ok D -> exists K, cosine_similarity (ll X) Y = Ok K /\ rect D r r /\
    forall i j s, cell K i j = Some s -> exists d, cell D i j = Some d /\ (i = j -> d = zero) /\ (i <> j -> clipped s d).
Proof.
  intros m X r k Y D RX Hr HY H. unfold cosine_distances in H. inv_bind H. exists a. split; auto.
  destruct (C59_symmetric m X r k Y a RX Hr HY E) as [RA _].
  rewrite apply_2d_ll in H. rewrite (mapM_pure _ (map (fun x => pw_clip (add (opp x) one) zero (ofZ 2)))) in H by (intros row _; apply mapM_Ok). cbn [bind] in H.
  set (S := map (map (fun x => pw_clip (add (opp x) one) zero (ofZ 2))) a) in *.
  assert (RS : rect S r r). { destruct RA as [L R]. split; [unfold S; rewrite map_length; auto|]. apply Forall_map. eapply Forall_impl; [|exact R]. intros row Hrow. rewrite map_length. auto. }
  assert (ED : D = set_diag S) by (destruct HY as [-> | ->]; congruence). subst D. split; [apply set_diag_rect; auto|].
  intros i j s Hc. assert (CS : cell S i j = Some (pw_clip (add (opp s) one) zero (ofZ 2))).
  { unfold cell, S in *. rewrite nth_error_map'. destruct (nth_error a i) as [row|]; [|discriminate]. cbn [option_map]. rewrite nth_error_map', Hc. auto. }
  rewrite (set_diag_cell S i j _ CS). eexists. split; [reflexivity|]. destruct (Nat.eqb_spec i j); split; intro; try congruence. apply clip_ok. reflexivity.
Qed.
Print Assumptions C60_self.
(** A clipped value is in [0, 2] whenever the similarity is not NaN. *)
Theorem C60_range : forall (m : libm) (s d : F64 m), clipped s d -> isnan s = false -> leb zero d = true /\ leb d (ofZ 2) = true.
Proof.
  intros m s d H N. unfold clipped in H. cbv zeta in H. set (e := add (opp s) one) in *.
  assert (T : forall x y : F64 m, isnan x = false -> isnan y = false -> ltb x y = false -> leb y x = true).
  { intros x y Nx Ny L. rewrite (o_leb _ (F64_ord m)). destruct (o_total _ (F64_ord m) x y Nx Ny) as [Q|[Q|Q]]; [congruence| |rewrite Q; auto]. rewrite (o_sym _ (F64_ord m)) in Q. rewrite Q. apply orb_true_r. }
  destruct H as [[_ ->]|[(_ & _ & ->)|(H1 & H2 & ->)]]; [split; reflexivity|split; reflexivity|].
  assert (Ne : isnan e = false).
  { unfold e. change (is_nan (f_add (Bopp s) (f_ofZE 1 0)) = false). rewrite f_nan_x, f_add_x. change (is_nan s = false) in N. assert (NO : is_nan (Bopp s) = false) by (destruct s; auto). rewrite f_nan_x in NO. rewrite xround_nan, f_ofZ_x by lia. destruct (b2x (Bopp s)); try discriminate; reflexivity. }
  split; apply T; auto.
Qed.
Print Assumptions C60_range.
(** Sparse X agrees with dense X; mismatched widths and sparse Y are refused. *)
Theorem C60_sparse : forall (m : libm) (X Y DY : list (list (F64 m))) rows dt r s k, rect X r k -> rect Y s k -> 1 <= r -> 1 <= s ->
  Forall2 stores_sorted rows X -> Forall (Forall (fun x => isnan x = false)) X -> l2_normalised Y DY -> Forall (Forall finite) DY ->
  cosine_distances (Sp rows (Some (Z.of_nat k)) dt) (YOther (ll Y)) = cosine_distances (ll X) (YOther (ll Y)).
Proof. intros. unfold cosine_distances. rewrite (C59_sparse m X Y DY rows dt r s k); auto. Qed.
Print Assumptions C60_sparse.
Theorem C60_refused : forall (A : arith) (X Y : list (list A)) rows dt r s k k', rect X r k -> rect Y s k' -> 1 <= r -> 1 <= s -> rows <> [] ->
  (k <> k' -> cosine_distances (ll X) (YOther (ll Y)) = Err ValueError) /\
  cosine_distances (ll X) (YOther (Sp rows (Some (Z.of_nat k)) dt)) = Err ValueError /\
  cosine_distances (Sp rows (Some (Z.of_nat k)) dt) YNone = Err ValueError.
Proof.
  intros A X Y rows dt r s k k' RX RY Hr Hs NR. destruct (C59_refused A X Y rows dt r s k k' RX RY Hr Hs NR) as (E1 & E2 & E3).
  unfold cosine_distances. rewrite E2, E3. split; auto. intro N. rewrite E1; auto.
Qed.
Print Assumptions C60_refused.
Example C60_ex : forall m : libm,
  match cosine_distances (ll [[ofZ 0; ofZ 3]; [ofZ 0; ofZ (-4) : F64 m]]) YNone with Ok K => map (map toZ) K | _ => [] end = [[Ok 0; Ok 2]; [Ok 2; Ok 0]]%Z /\
  match cosine_distances (ll [[ofZ 0; ofZ 3]; [ofZ 0; ofZ (-4) : F64 m]]) (YOther (ll [[ofZ 1; ofZ 0]])) with Ok K => map (map toZ) K | _ => [] end = [[Ok 1]; [Ok 1]]%Z.
Proof. intro m. split; vm_compute; reflexivity. Qed.
