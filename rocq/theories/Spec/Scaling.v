(** Specification vocabulary for scalers and normalisers. *)
From Coq Require Import Reals.
From Verif Require Import Model.Py Model.Arith Spec.Matrix Spec.Reals.

(** [D] has the shape of the r x c matrix [M] and every cell of column j is
    related to the corresponding cell of [M] by [R j]. *)
Definition mapped {S T} (R : nat -> S -> T -> Prop) (r c : nat) (M : list (list S)) (D : list (list T)) : Prop :=
  rect D r c /\ forall i j x, cell M i j = Some x -> exists v, cell D i j = Some v /\ R j x v.

Section Spec.
  Context {A : arith}.

  (** [v] = (x - mean_j) / scale_j, each half optional. *)
  Definition standard (on_mean on_std : bool) (mean scale : list A) (j : nat) (x v : A) : Prop :=
    exists y, (if on_mean then exists m, nth_error mean j = Some m /\ y = sub x m else y = x) /\
              (if on_std then exists s, nth_error scale j = Some s /\ div y s = Ok v else v = y).
  (** [v] = x * scale_j + min_j *)
  Definition affine_col (scale mn : list A) (j : nat) (x v : A) : Prop :=
    exists s m, nth_error scale j = Some s /\ nth_error mn j = Some m /\ v = add (mul x s) m.
  (** [v] = x / scale_j *)
  Definition divided (scale : list A) (j : nat) (x v : A) : Prop :=
    exists s, nth_error scale j = Some s /\ div x s = Ok v.
  (** [out] is [row] divided by [n], or by 1 when [n] is zero. *)
  Definition divided_by (n : A) (row out : list A) : Prop :=
    Forall2 (fun x y => div x (if eqb n zero then one else n) = Ok y) row out.
  (** [y] is on the same side of 0 as [x] (a tiny [x] may become 0). *)
  Definition keeps_sign (x y : A) : Prop :=
    (leb zero x = true -> leb zero y = true) /\ (leb x zero = true -> leb y zero = true).
  (** [out] is [row] brought into [-1, 1] without changing signs; a zero row
      is unchanged. *)
  Definition into_unit (row out : list A) : Prop :=
    Forall2 (fun x y => keeps_sign x y /\ leb (absv y) one = true) row out /\ (Forall is0 row -> out = row).
  (** The largest absolute value of [row] is finite and attained by an entry
      that is not negative. *)
  Definition dominated (row : list A) : Prop :=
    exists mx, In mx row /\ finite mx /\ forall x, In x row -> leb (absv x) mx = true.
End Spec.

(** Norms of real vectors. *)
Definition Rl1 (row : list R) : R := Rsum (map Rabs row).
Definition Rl2 (row : list R) : R := sqrt (Rdot row row).
(** [out] is [row] scaled by a positive factor to norm 1, or [row] itself when
    its norm is 0. *)
Definition unit_row (nrm : list R -> R) (row out : list R) : Prop :=
  (nrm row = 0 -> out = row)%R /\
  (nrm row <> 0 -> nrm out = 1 /\ exists k, 0 < k /\ out = map (fun x => x * k) row)%R.
(** Column [j] of a real matrix. *)
Definition Rcolumn (M : list (list R)) (j : nat) : list R := map (fun row => nth j row 0%R) M.
