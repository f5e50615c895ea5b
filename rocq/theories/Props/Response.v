(** C88: linear models respond in the direction of their coefficients. *)
From Coq Require Import String Lia.
From Flocq Require Import BinarySingleNaN.
From Verif Require Import Model.Py Model.Arith Model.F64 Model.Utils Model.Base Model.Linear.
From Verif Require Import Spec.Matrix Spec.Libm Spec.Linear Spec.Order Spec.Response.
From Verif Require Import Proofs.Lib Proofs.Laws Proofs.Unit Proofs.CRLibm Proofs.Linear Proofs.Response.
From Verif Require Props.Linear Props.Order.
Local Open Scope nat_scope.

(** C88.  In doubles, with all rounding: when row y is row x with some features
    raised where class k has a non-negative coefficient, or lowered where it has
    a non-positive one, the score of class k for y is not below that for x
    (NaN scores aside). *)
Theorem C88_scores : forall (m : libm) (L : Type) (c : linear (F64 m) L) d K b (M N : list (list (F64 m))) r r',
  fitted_linear c d K b -> rect M r d -> rect N r' d -> 1 <= r -> 1 <= r' ->
  exists S s T t,
    decision_function c (ll M) = Ok s /\ scores_are K S s /\
    decision_function c (ll N) = Ok t /\ scores_are K T t /\
    forall i i' k x y w u v, nth_error M i = Some x -> nth_error N i' = Some y -> nth_error (l_coef c) k = Some w ->
      towards w x y -> cell S i k = Some u -> cell T i' k = Some v -> isnan u = false -> isnan v = false ->
      leb u v = true.
Proof.
  intros m L c d K b M N r r' F RM RN Hr Hr'.
  destruct (Linear.C18_dense (F64 m) L c d K b M r F RM Hr) as (S & s & E & HS & HA).
  destruct (Linear.C18_dense (F64 m) L c d K b N r' F RN Hr') as (T & t & E' & HT & HB).
  exists S, s, T, t. repeat (split; [assumption|]). destruct F as ([LK _] & _ & _ & Lb).
  destruct (proj1 (Forall2_nth_error _ _ _) HA) as [_ FA]. destruct (proj1 (Forall2_nth_error _ _ _) HB) as [_ FB].
  intros i i' k x y w u v Hx Hy Hw HD Hu Hv Nu Nv. unfold cell in Hu, Hv.
  destruct (nth_error S i) as [sx|] eqn:ES; [|discriminate]. destruct (nth_error T i') as [sy|] eqn:ET; [|discriminate].
  destruct (FA i x sx Hx ES) as [_ AX]. destruct (FB i' y sy Hy ET) as [_ AY].
  destruct (nth_error b k) as [bk|] eqn:Eb.
  2:{ exfalso. apply nth_error_None in Eb. assert (k < length (l_coef c)) by (apply nth_error_Some; congruence). change (num (F64 m)) with f64 in *. lia. }
  rewrite (AX k w bk Hw Eb) in Hu. rewrite (AY k w bk Hw Eb) in Hv. injection Hu as <-. injection Hv as <-.
  pose proof (add_nan m _ _ Nu) as [N1 N2]. pose proof (add_nan m _ _ Nv) as [N3 _].
  apply add_up; auto.
  - apply dotp_up; auto.
  - apply (leb_refl (F64_ord m)). exact N2.
Qed.
Print Assumptions C88_scores.

(** Two classes: such a change never turns a sample labelled with the second
    class into one labelled with the first ... *)
Theorem C88_label : forall (m : libm) (L : Type) (c : linear (F64 m) L) d w b (M N : list (list (F64 m))) r r' out out' t i i' x y v,
  fitted_linear c d 1 [b] -> l_coef c = [w] -> rect M r d -> rect N r' d -> 1 <= r -> 1 <= r' ->
  linear_predict c (ll M) = Ok out -> linear_predict c (ll N) = Ok out' ->
  nth_error M i = Some x -> nth_error N i' = Some y -> towards w x y ->
  decision_function c (ll N) = Ok (D1 t) -> nth_error t i' = Some v -> isnan v = false ->
  nth_error (l_classes c) 0 <> nth_error (l_classes c) 1 ->
  nth_error out i = nth_error (l_classes c) 1 -> nth_error out' i' = nth_error (l_classes c) 1.
Proof.
  intros m L c d w b M N r r' out out' t i i' x y v F EW RM RN Hr Hr' EO EO' Hx Hy HD ET Hv Nv NE HO.
  destruct (C88_scores m L c d 1 [b] M N r r' F RM RN Hr Hr') as (S & s & T & t0 & E & HS & E' & HT & H).
  rewrite ET in E'. injection E' as <-. destruct HS as [[Q _]|(_ & ls & -> & ->)]; [congruence|]. destruct HT as [[Q _]|(_ & lt & -> & HT)]; [congruence|]. injection HT as <-.
  pose proof (proj1 (Linear.C19_binary m L c (ll M) ls E out) EO) as FO. pose proof (proj1 (Linear.C19_binary m L c (ll N) t ET out') EO') as FO'.
  destruct (proj1 (Forall2_nth_error _ _ _) FO) as [LO GO]. destruct (proj1 (Forall2_nth_error _ _ _) FO') as [LO' GO'].
  assert (I' : i' < length out') by (rewrite <- LO'; apply nth_error_Some; congruence).
  destruct (nth_error out' i') as [o'|] eqn:Eo'; [|apply nth_error_None in Eo'; lia].
  destruct (GO' i' v o' Hv Eo') as [[_ ->]|[B Eq]]; [reflexivity|]. exfalso.
  assert (EL : length ls = length M).
  { destruct (Linear.C18_dense (F64 m) L c d 1 [b] M r F RM Hr) as (S & s & E1 & HS & HA). rewrite E in E1. injection E1 as <-.
    destruct HS as [[Q _]|(_ & l2 & -> & Q)]; [congruence|]. injection Q as <-. apply Forall2_len in HA. rewrite map_length in HA. auto. }
  assert (I : i < length ls) by (rewrite EL; apply nth_error_Some; congruence).
  destruct (nth_error ls i) as [u|] eqn:Eu; [|apply nth_error_None in Eu; lia].
  assert (I2 : i < length out) by (rewrite <- LO; exact I). destruct (nth_error out i) as [o|] eqn:Eo; [|apply nth_error_None in Eo; lia].
  destruct (GO i u o Eu Eo) as [[P _]|[_ Q]]; [|congruence].
  assert (LE : leb u v = true).
  { eapply (H i i' 0 x y w u v); eauto.
    - rewrite EW. reflexivity.
    - unfold cell. rewrite nth_error_map, Eu. reflexivity.
    - unfold cell. rewrite nth_error_map, Hv. reflexivity.
    - apply (o_lt_nan _ (F64_ord m) _ _ P). }
  assert (Z : ltb zero v = true).
  { rewrite (o_leb _ (F64_ord m)) in LE. apply Bool.orb_true_iff in LE. destruct LE as [LE|LE].
    - eapply (o_trans _ (F64_ord m)); eauto.
    - rewrite <- (o_eq_lt_r _ (F64_ord m) _ _ zero LE). exact P. }
  change (num (F64 m)) with f64 in *. congruence.
Qed.
Print Assumptions C88_label.

(** ... nor lowers the probability of the second class (one-vs-rest
    probabilities; the library's [exp] only has to be monotone). *)
Theorem C88_proba : forall (m : libm) (L : Type) (c : linear (F64 m) L) f d w b (M N : list (list (F64 m))) r r' P Q s t i i' x y u v,
  exp_nonneg m -> exp_monotone m -> one_vs_rest c f ->
  fitted_linear c d 1 [b] -> l_coef c = [w] -> rect M r d -> rect N r' d -> 1 <= r -> 1 <= r' ->
  f (ll M) = Ok P -> f (ll N) = Ok Q ->
  nth_error M i = Some x -> nth_error N i' = Some y -> towards w x y ->
  decision_function c (ll M) = Ok (D1 s) -> nth_error s i = Some u -> isnan u = false ->
  decision_function c (ll N) = Ok (D1 t) -> nth_error t i' = Some v -> isnan v = false ->
  exists p0 p1 q0 q1, nth_error P i = Some [p0; p1] /\ nth_error Q i' = Some [q0; q1] /\ leb p1 q1 = true /\ leb q0 p0 = true.
Proof.
  intros m L c f d w b M N r r' P Q s t i i' x y u v HE HM HF F EW RM RN Hr Hr' EP EQ Hx Hy HD ES Hu Nu ET Hv Nv.
  apply (Order.C80_linear_binary m L c f (ll M) (ll N) s t P Q HE HM HF ES ET EP EQ i i' u v Hu Hv).
  destruct (C88_scores m L c d 1 [b] M N r r' F RM RN Hr Hr') as (S & s0 & T & t0 & E & HS & E' & HT & H).
  rewrite ES in E. rewrite ET in E'. injection E as <-. injection E' as <-.
  destruct HS as [[W _]|(_ & ls & -> & W)]; [congruence|]. injection W as <-. destruct HT as [[W _]|(_ & lt & -> & W)]; [congruence|]. injection W as <-.
  eapply (H i i' 0 x y w u v); eauto.
  - rewrite EW. reflexivity.
  - unfold cell. rewrite nth_error_map, Hu. reflexivity.
  - unfold cell. rewrite nth_error_map, Hv. reflexivity.
Qed.
Print Assumptions C88_proba.

(** Coefficients 2 and -1/2: the first feature rises, the second falls, and the
    label goes from the first class to the second. *)
Definition slope (m : libm) : linear (F64 m) nat :=
  {| l_coef := [[ofZ 2; ofZE (-1) (-1)]]; l_classes := [7; 9]; l_intercept := Some [ofZ (-3)];
     l_multi := Some (lit "ovr"); l_solver := None; l_loss := None |}.
Example C88_ex : forall m : libm,
  let x : list (F64 m) := [one; ofZ 4] in
  let y : list (F64 m) := [ofZ 2; ofZ (-1)] in
  fitted_linear (slope m) 2 1 [ofZ (-3)] /\ towards [ofZ 2; ofZE (-1) (-1)] x y /\
  one_vs_rest (slope m) (logistic_predict_proba (slope m)) /\
  linear_predict (slope m) (ll [x; y]) = Ok [7; 9] /\
  match decision_function (slope m) (ll [x; y]) with Ok (D1 [u; v]) => is_finite u && is_finite v && ltb u v | _ => false end = true.
Proof.
  intros m x y. split; [|split; [|split; [|split]]].
  - split; [split; [reflexivity|repeat constructor]|]. split; [lia|]. split; reflexivity.
  - split; [reflexivity|]. split; [reflexivity|]. intros [|[|j]] v a b Ev Ea Eb.
    + injection Ev as <-. injection Ea as <-. injection Eb as <-. left. split; vm_compute; reflexivity.
    + injection Ev as <-. injection Ea as <-. injection Eb as <-. right. split; vm_compute; reflexivity.
    + destruct j; discriminate.
  - left. split; [reflexivity|]. left. reflexivity.
  - vm_compute. reflexivity.
  - vm_compute. reflexivity.
Qed.
