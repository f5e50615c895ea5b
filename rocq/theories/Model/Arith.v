(** The numbers a model function computes with.  Every function of the library
    is modelled once, over such a record; [Model/F64.v] instantiates it with
    IEEE doubles (what CPython runs), [Model/XR.v] with exact extended reals. *)
From Verif Require Import Model.Py.

(** Python types used as [dtype] of a [sparse_list] or an encoder. *)
Inductive dtype := DFloat | DInt | DBool.

Record arith := {
  num :> Type;
  ofZE : Z -> Z -> num;          (* [ofZE m e] is m * 2^e : float literals   *)
  add : num -> num -> num;       (* x + y                                    *)
  sub : num -> num -> num;       (* x - y                                    *)
  mul : num -> num -> num;       (* x * y                                    *)
  opp : num -> num;              (* -x                                       *)
  absv : num -> num;             (* abs(x)                                   *)
  div : num -> num -> res num;   (* x / y : ZeroDivisionError                *)
  sqrtv : num -> res num;        (* math.sqrt(x) : ValueError                *)
  sqr : num -> res num;          (* x ** 2 : OverflowError                   *)
  expv : num -> res num;         (* math.exp(x) : OverflowError              *)
  logv : num -> res num;         (* math.log(x) : ValueError                 *)
  leb : num -> num -> bool;      (* x <= y                                   *)
  ltb : num -> num -> bool;      (* x < y                                    *)
  eqb : num -> num -> bool;      (* x == y                                   *)
  isnan : num -> bool;           (* math.isnan(x)                            *)
  toZ : num -> res Z;            (* int(x) : ValueError / OverflowError      *)
  pinf : num;                    (* float("Inf")                             *)
  ninf : num;                    (* -float("Inf")                            *)
  nanv : num;                    (* float("NaN")                             *)
}.
Arguments ofZE {a} _ _.
Arguments add {a} _ _.
Arguments sub {a} _ _.
Arguments mul {a} _ _.
Arguments opp {a} _.
Arguments absv {a} _.
Arguments div {a} _ _.
Arguments sqrtv {a} _.
Arguments sqr {a} _.
Arguments expv {a} _.
Arguments logv {a} _.
Arguments leb {a} _ _.
Arguments ltb {a} _ _.
Arguments eqb {a} _ _.
Arguments isnan {a} _.
Arguments toZ {a} _.
Arguments pinf {a}.
Arguments ninf {a}.
Arguments nanv {a}.

Section Derived.
  Context {A : arith}.

  (** An int used as a number. *)
  Definition ofZ (z : Z) : A := ofZE z 0.
  Definition zero : A := ofZ 0.
  Definition one : A := ofZ 1.
  Definition ofnat (n : nat) : A := ofZ (Z.of_nat n).

  (** [x > y], [x >= y] *)
  Definition gtb (x y : A) : bool := ltb y x.
  Definition geb (x y : A) : bool := leb y x.

  (** [sum(l)]: left fold starting from the int 0. *)
  Definition psum (l : list A) : A := fold_left add l zero.

  (** [list.index] compares by identity or [==].  Identity only matters for a
      NaN, and [a.index(max(a))] meets a NaN only if it is the first element. *)
  Definition same (x y : A) : bool := eqb x y || (isnan x && isnan y).

  (** [a.index(max(a))], used throughout for the arg max. *)
  Definition argmax (l : list A) : res nat :=
    m <- pymax gtb l ;; list_index same m l.

  (** [dtype(v)] for a number [v]. *)
  Definition conv (d : dtype) (v : A) : res A :=
    match d with
    | DFloat => Ok v
    | DInt => z <- toZ v ;; Ok (ofZ z)
    | DBool => Ok (if eqb v zero then zero else one)
    end.
  (** [dtype(0)] *)
  Definition dzero (d : dtype) : A := zero.
End Derived.
