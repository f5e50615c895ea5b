(** Vocabulary for the fastText properties C54-C58. *)
From Verif Require Import Model.Py Model.Arith Spec.Matrix.
Local Open Scope nat_scope.

(** [i] is the first position of [w] in [ws]. *)
Definition position (w : pystr) (ws : list pystr) (i : nat) : Prop :=
  nth_error ws i = Some w /\ forall j, j < i -> nth_error ws j <> Some w.

(** [ks] are the words of [ws] found in [vocab], in order, with repetitions. *)
Inductive restricted (vocab : list pystr) : list pystr -> list pystr -> Prop :=
| re_nil : restricted vocab [] []
| re_keep : forall w ws ks, In w vocab -> restricted vocab ws ks -> restricted vocab (w :: ws) (w :: ks)
| re_drop : forall w ws ks, ~ In w vocab -> restricted vocab ws ks -> restricted vocab (w :: ws) ks.

Section F.
  Context {A : arith}.

  (** The row of [M] at the first position of [w]. *)
  Definition vector_of (ws : list pystr) (M : list (list A)) (w : pystr) (v : list A) : Prop :=
    exists i, position w ws i /\ nth_error M i = Some v.

  (** [out] is the mean of the vectors [vs], component by component. *)
  Definition averaged (vs : list (list A)) (dim : nat) (out : list A) : Prop :=
    length out = dim /\
    forall j x, nth_error out j = Some x ->
      exists col, Forall2 (fun v c => nth_error v j = Some c) vs col /\
                  div (psum col) (ofnat (length vs)) = Ok x.

  (** [n] is the Euclidean norm of [v] as computed. *)
  Definition norm_of (v : list A) (n : A) : Prop :=
    exists qs, Forall2 (fun x q => sqr x = Ok q) v qs /\ sqrtv (psum qs) = Ok n.
  (** [u] is [v] multiplied by the inverse of its norm, if that is positive. *)
  Definition unit_row (v u : list A) : Prop :=
    exists n, norm_of v n /\
      (ltb zero n = true -> exists r, (v <> [] -> div one n = Ok r) /\ u = map (fun x => mul x r) v) /\
      (ltb zero n = false -> u = v).

  (** Softmax of [s] with the largest score subtracted first. *)
  Definition shifted_softmax (s p : list A) : Prop :=
    exists mx es, In mx s /\ Forall (fun x => leb x mx = true) s /\
      Forall2 (fun x e => expv (sub x mx) = Ok e) s es /\
      Forall2 (fun e q => div e (psum es) = Ok q) es p.

  (** [I] lists at most [k] positions of [p] with values at least [thr], in
      decreasing order of value, and every other position with value at least
      [thr] has a value no larger and was left out because [I] is full. *)
  Definition top_k (p : list A) (thr : A) (k : nat) (I : list nat) : Prop :=
    NoDup I /\ length I <= k /\
    (forall i, In i I -> exists x, nth_error p i = Some x /\ leb thr x = true) /\
    (forall a b i j x y, a < b -> nth_error I a = Some i -> nth_error I b = Some j ->
       nth_error p i = Some x -> nth_error p j = Some y -> leb y x = true) /\
    (forall j y, nth_error p j = Some y -> leb thr y = true -> ~ In j I ->
       length I = k /\ forall i x, In i I -> nth_error p i = Some x -> leb y x = true).
End F.
