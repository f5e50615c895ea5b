(** Specification vocabulary for the feature hasher on (name, value) pairs. *)
From Coq Require Import String.
From Verif Require Import Model.Py Model.Arith Spec.Features.
Local Open Scope Z_scope.

Section Num.
  Context {A : arith}.
  (** The features of a row of pairs: a string value [s] of name [f] is the
      feature f=s with value 1; pairs of value 0 are none. *)
  Definition features (x : list (pystr * fval A)) : list (pystr * A) :=
    filter (fun tv => negb (eqb (snd tv) zero)) (named (lit "=") x).
  (** The column and the number a feature contributes: its value, times the
      sign of its hash with [alternate_sign]. *)
  Definition contribution (n : Z) (alt : bool) (tv : pystr * A) (jv : Z * A) : Prop :=
    exists h, feature_hash (fst tv) h /\ fst jv = column n h /\
      snd jv = if alt then mul (snd tv) (ofZ (if 0 <=? h then 1 else -1)) else snd tv.
  (** Text that Python can hold and that a 32-bit length can tell. *)
  Definition text_ok (t : pystr) : Prop := Forall (fun c => 0 <= c < 1114112) t /\ Z.of_nat (List.length t) < 2 ^ 30.
  (** Text without a lone surrogate, i.e. with a UTF-8 form. *)
  Definition encodable (t : pystr) : Prop := Forall (fun c => ~ 55296 <= c <= 57343) t.
  (** The contributions that fall in column [j]. *)
  Definition falling (j : Z) (l : list (Z * A)) : list A := map snd (filter (fun jv => fst jv =? j) l).
End Num.
