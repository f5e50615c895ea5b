(** Specification vocabulary for DictVectorizer and the feature hasher. *)
From Coq Require Import String.
From Verif Require Import Model.Py Model.Arith Model.Utils Spec.Matrix.
From Verif Require Model.Hash.
Notation fval := Model.Hash.fval.
Notation FStr := Model.Hash.FStr.
Notation FNum := Model.Hash.FNum.
Local Open Scope Z_scope.

(** The value of the last pair with key [k]. *)
Fixpoint last_of {K V} (dec : forall a b : K, {a = b} + {a <> b}) (k : K) (l : list (K * V)) : option V :=
  match l with
  | [] => None
  | (k', v) :: t => match last_of dec k t with
                    | Some w => Some w
                    | None => if dec k' k then Some v else None
                    end
  end.
Definition str_dec : forall a b : pystr, {a = b} + {a <> b} := list_eq_dec Z.eq_dec.

(** The pairs (feature, value) a mapping stands for: a string value [s] of key
    [k] is the feature k<sep>s with value 1. *)
Definition named {A : arith} (sep : pystr) (x : list (pystr * fval A)) : list (pystr * A) :=
  map (fun kv => match snd kv with FStr s => (fst kv ++ sep ++ s, one) | FNum v => (fst kv, v) end) x.
(** What the mapping says about feature [t]: the last value given, else 0. *)
Definition setting {A : arith} (sep : pystr) (x : list (pystr * fval A)) (t : pystr) : A :=
  match last_of str_dec t (named sep x) with Some v => v | None => zero end.

(** MurmurHash3_x86_32 (Appleby), on bytes, in arithmetic modulo 2^32. *)
Definition W : Z := 2 ^ 32.
Definition rol (x r : Z) : Z := (x * 2 ^ r) mod W + x / 2 ^ (32 - r).
Fixpoint little_endian (l : list Z) : Z := match l with [] => 0 | b :: t => b + 256 * little_endian t end.
Definition scramble (k : Z) : Z := (rol ((k * 3432918353) mod W) 15 * 461845907) mod W.
Definition absorb (h k : Z) : Z := (rol (Z.lxor h (scramble k)) 13 * 5 + 3864292196) mod W.
Fixpoint absorb_blocks (n : nat) (h : Z) (key : list Z) : Z :=
  match n with O => h | S n' => absorb_blocks n' (absorb h (little_endian (firstn 4 key))) (skipn 4 key) end.
Definition xorshift (h r : Z) : Z := Z.lxor h (h / 2 ^ r).
Definition avalanche (h : Z) : Z :=
  xorshift ((xorshift ((xorshift h 16 * 2246822507) mod W) 13 * 3266489909) mod W) 16.
Definition murmur3 (key : list Z) (seed : Z) : Z :=
  let n := (length key / 4)%nat in
  let h := absorb_blocks n seed key in
  let tail := skipn (4 * n) key in
  let h := match tail with [] => h | _ => Z.lxor h (scramble (little_endian tail)) end in
  avalanche (Z.lxor h (Z.of_nat (length key) mod W)).
(** The 32-bit word read as a two's complement number. *)
Definition signed (u : Z) : Z := if u <? 2 ^ 31 then u else u - 2 ^ 32.

(** UTF-8: the bytes of a code point, by its bits. *)
Definition utf8_of (c : Z) (bs : list Z) : Prop :=
  (0 <= c < 128 /\ bs = [c]) \/
  (128 <= c < 2048 /\ exists a b, bs = [192 + a; 128 + b] /\ 0 <= a < 32 /\ 0 <= b < 64 /\ c = a * 64 + b) \/
  (2048 <= c < 65536 /\ ~ 55296 <= c <= 57343 /\
     exists a b d, bs = [224 + a; 128 + b; 128 + d] /\ 0 <= a < 16 /\ 0 <= b < 64 /\ 0 <= d < 64 /\ c = a * 4096 + b * 64 + d) \/
  (65536 <= c < 1114112 /\
     exists a b d e, bs = [240 + a; 128 + b; 128 + d; 128 + e] /\ 0 <= a < 8 /\ 0 <= b < 64 /\ 0 <= d < 64 /\ 0 <= e < 64 /\ c = a * 262144 + b * 4096 + d * 64 + e).
Definition utf8_bytes (s : pystr) (bs : list Z) : Prop := exists bss, Forall2 utf8_of s bss /\ bs = concat bss.

(** The 32-bit feature hash of a string, its column and its sign. *)
Definition feature_hash (t : pystr) (h : Z) : Prop := exists bs, utf8_bytes t bs /\ h = signed (murmur3 bs 0).
(** Among the tokens paired with their hashes, the signed number that fall in
    column [j] of [n], and how many they are. *)
Definition column (n h : Z) : Z := Z.abs h mod n.
Fixpoint signed_count (n j : Z) (hs : list Z) : Z :=
  match hs with [] => 0 | h :: t => (if Z.eq_dec (column n h) j then (if 0 <=? h then 1 else -1) else 0) + signed_count n j t end.
Fixpoint hits_in (n j : Z) (hs : list Z) : nat :=
  match hs with [] => 0%nat | h :: t => ((if Z.eq_dec (column n h) j then 1 else 0) + hits_in n j t)%nat end.
