(** IEEE-754 binary64, as CPython floats: Flocq's [binary_float 53 1024] with
    round-to-nearest-even.  [math.exp] and [math.log] on finite arguments are
    the C library's; they are the parameters [m_exp], [m_log]. *)
From Coq Require Import ZArith Bool.
From Flocq Require Import Core BinarySingleNaN.
From Verif Require Import Model.Py Model.Arith.

Definition f64 := binary_float 53 1024.
#[global] Instance prec53 : Prec_gt_0 53 := eq_refl.
#[global] Instance emax1024 : Prec_lt_emax 53 1024 := eq_refl.

Record libm := {
  m_exp : f64 -> option f64;   (* finite x; None = the C function overflows *)
  m_log : f64 -> f64;          (* finite x > 0 *)
}.

Definition f_ofZE (m e : Z) : f64 := binary_normalize 53 1024 _ _ mode_NE m e false.
Definition f_add : f64 -> f64 -> f64 := Bplus mode_NE.
Definition f_sub : f64 -> f64 -> f64 := Bminus mode_NE.
Definition f_mul : f64 -> f64 -> f64 := Bmult mode_NE.
Definition f_opp : f64 -> f64 := Bopp.
Definition f_abs : f64 -> f64 := Babs.
Definition f_leb : f64 -> f64 -> bool := Bleb.
Definition f_ltb : f64 -> f64 -> bool := Bltb.
Definition f_eqb : f64 -> f64 -> bool := Beqb.
Definition f_inf : f64 := B754_infinity false.
Definition f_ninf : f64 := B754_infinity true.
Definition f_nan : f64 := B754_nan.

(** float.__truediv__: any zero divisor raises ZeroDivisionError. *)
Definition f_div (x y : f64) : res f64 :=
  match y with
  | B754_zero _ => Err ZeroDivisionError
  | _ => Ok (Bdiv mode_NE x y)
  end.
(** math.sqrt: ValueError below zero; sqrt(-0.0) = -0.0. *)
Definition f_sqrt (x : f64) : res f64 :=
  match x with
  | B754_finite true _ _ _ | B754_infinity true => Err ValueError
  | _ => Ok (Bsqrt mode_NE x)
  end.
(** float.__pow__(x, 2): OverflowError when a finite x overflows.
    Simplification: the C library's pow(x, 2.0) is taken to be correctly rounded. *)
Definition f_sqr (x : f64) : res f64 :=
  let y := Bmult mode_NE x x in
  if is_finite x && negb (is_finite y) then Err OverflowError else Ok y.
(** math.exp *)
Definition f_exp (m : libm) (x : f64) : res f64 :=
  match x with
  | B754_nan => Ok B754_nan
  | B754_infinity false => Ok f_inf
  | B754_infinity true => Ok (f_ofZE 0 0)
  | _ => match m_exp m x with Some y => Ok y | None => Err OverflowError end
  end.
(** math.log *)
Definition f_log (m : libm) (x : f64) : res f64 :=
  match x with
  | B754_nan => Ok B754_nan
  | B754_infinity false => Ok f_inf
  | B754_finite false _ _ _ => Ok (m_log m x)
  | _ => Err ValueError
  end.
(** int(x) *)
Definition f_toZ (x : f64) : res Z :=
  match x with
  | B754_nan => Err ValueError
  | B754_infinity _ => Err OverflowError
  | _ => Ok (Btrunc x)
  end.

Definition F64 (m : libm) : arith := {|
  num := f64; ofZE := f_ofZE; add := f_add; sub := f_sub; mul := f_mul;
  opp := f_opp; absv := f_abs; div := f_div; sqrtv := f_sqrt; sqr := f_sqr;
  expv := f_exp m; logv := f_log m; leb := f_leb; ltb := f_ltb; eqb := f_eqb;
  isnan := is_nan; toZ := f_toZ; pinf := f_inf; ninf := f_ninf; nanv := f_nan |}.
