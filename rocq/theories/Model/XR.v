(** Exact arithmetic: real numbers with +inf, -inf and NaN following the IEEE
    rules for special values, without rounding, overflow or signed zeros.
    Used to state claims that hold "up to rounding". *)
From Coq Require Import Reals ZArith Bool.
From Verif Require Import Model.Py Model.Arith.
Local Open Scope R_scope.

Inductive xr := XNaN | XPInf | XNInf | XFin (r : R).

Definition Rltb (x y : R) : bool := if Rlt_dec x y then true else false.
Definition Rleb (x y : R) : bool := if Rle_dec x y then true else false.
Definition Reqb (x y : R) : bool := if Req_EM_T x y then true else false.

Definition x_ofZE (m e : Z) : xr := XFin (IZR m * powerRZ 2 e).
Definition x_opp (x : xr) : xr :=
  match x with XNaN => XNaN | XPInf => XNInf | XNInf => XPInf | XFin r => XFin (- r) end.
Definition x_add (x y : xr) : xr :=
  match x, y with
  | XNaN, _ | _, XNaN => XNaN
  | XFin a, XFin b => XFin (a + b)
  | XPInf, XNInf | XNInf, XPInf => XNaN
  | XPInf, _ | _, XPInf => XPInf
  | XNInf, _ | _, XNInf => XNInf
  end.
Definition x_sub (x y : xr) : xr := x_add x (x_opp y).
(** infinity with the sign of [s * r] *)
Definition x_inf_times (s : bool) (r : R) : xr :=
  if Reqb r 0 then XNaN
  else if xorb s (Rltb r 0) then XNInf else XPInf.
Definition x_mul (x y : xr) : xr :=
  match x, y with
  | XNaN, _ | _, XNaN => XNaN
  | XFin a, XFin b => XFin (a * b)
  | XPInf, XPInf | XNInf, XNInf => XPInf
  | XPInf, XNInf | XNInf, XPInf => XNInf
  | XPInf, XFin r | XFin r, XPInf => x_inf_times false r
  | XNInf, XFin r | XFin r, XNInf => x_inf_times true r
  end.
Definition x_abs (x : xr) : xr :=
  match x with XNaN => XNaN | XPInf | XNInf => XPInf | XFin r => XFin (Rabs r) end.
Definition x_div (x y : xr) : res xr :=
  match x, y with
  | _, XFin b =>
      if Reqb b 0 then Err ZeroDivisionError
      else match x with
           | XFin a => Ok (XFin (a / b))
           | XPInf => Ok (x_inf_times false b)
           | XNInf => Ok (x_inf_times true b)
           | XNaN => Ok XNaN
           end
  | XFin _, (XPInf | XNInf) => Ok (XFin 0)
  | _, _ => Ok XNaN
  end.
Definition x_sqrt (x : xr) : res xr :=
  match x with
  | XNaN => Ok XNaN
  | XPInf => Ok XPInf
  | XNInf => Err ValueError
  | XFin r => if Rltb r 0 then Err ValueError else Ok (XFin (sqrt r))
  end.
Definition x_sqr (x : xr) : res xr := Ok (x_mul x x).
Definition x_exp (x : xr) : res xr :=
  match x with
  | XNaN => Ok XNaN | XPInf => Ok XPInf | XNInf => Ok (XFin 0)
  | XFin r => Ok (XFin (exp r))
  end.
Definition x_log (x : xr) : res xr :=
  match x with
  | XNaN => Ok XNaN | XPInf => Ok XPInf | XNInf => Err ValueError
  | XFin r => if Rltb 0 r then Ok (XFin (ln r)) else Err ValueError
  end.
Definition x_leb (x y : xr) : bool :=
  match x, y with
  | XNaN, _ | _, XNaN => false
  | XNInf, _ | _, XPInf => true
  | XFin a, XFin b => Rleb a b
  | _, _ => false
  end.
Definition x_ltb (x y : xr) : bool :=
  match x, y with
  | XNaN, _ | _, XNaN => false
  | XNInf, XNInf | XPInf, XPInf => false
  | XNInf, _ | _, XPInf => true
  | XFin a, XFin b => Rltb a b
  | _, _ => false
  end.
Definition x_eqb (x y : xr) : bool :=
  match x, y with
  | XPInf, XPInf | XNInf, XNInf => true
  | XFin a, XFin b => Reqb a b
  | _, _ => false
  end.
Definition x_isnan (x : xr) : bool := match x with XNaN => true | _ => false end.
Definition x_toZ (x : xr) : res Z :=
  match x with
  | XNaN => Err ValueError
  | XPInf | XNInf => Err OverflowError
  | XFin r => Ok (if Rltb r 0 then (- Int_part (- r))%Z else Int_part r)
  end.

Definition XR : arith := {|
  num := xr; ofZE := x_ofZE; add := x_add; sub := x_sub; mul := x_mul;
  opp := x_opp; absv := x_abs; div := x_div; sqrtv := x_sqrt; sqr := x_sqr;
  expv := x_exp; logv := x_log; leb := x_leb; ltb := x_ltb; eqb := x_eqb;
  isnan := x_isnan; toZ := x_toZ; pinf := XPInf; ninf := XNInf; nanv := XNaN |}.
