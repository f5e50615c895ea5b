(** Model of pure_sklearn/feature_extraction/_hash.py. *)
From Coq Require Import String.
From Verif Require Import Model.Py Model.Arith Model.Utils Model.Base.

(** [s.encode()] (UTF-8): surrogates raise UnicodeEncodeError. *)
Definition utf8_char (c : Z) : res (list Z) :=
  (if (c <? 128) then Ok [c]
   else if (c <? 2048) then Ok [192 + Z.shiftr c 6; 128 + Z.land c 63]
   else if (55296 <=? c) && (c <=? 57343) then Err UnicodeError
   else if (c <? 65536) then Ok [224 + Z.shiftr c 12; 128 + Z.land (Z.shiftr c 6) 63; 128 + Z.land c 63]
   else Ok [240 + Z.shiftr c 18; 128 + Z.land (Z.shiftr c 12) 63;
            128 + Z.land (Z.shiftr c 6) 63; 128 + Z.land c 63])%Z.
Definition utf8 (s : pystr) : res (list Z) := bs <- mapM utf8_char s ;; Ok (concat bs).

(** The constants of _hash.py:34-64. *)
Definition mask32 : Z := 0xFFFFFFFF.
Definition h_c1 : Z := 0xCC9E2D51.
Definition h_c2 : Z := 0x1B873593.

(** _hash.py:59,63,80: [(x << r | x >> (32 - r)) & 0xFFFFFFFF] *)
Definition rotl (x r : Z) : Z := Z.land (Z.lor (Z.shiftl x r) (Z.shiftr x (32 - r))) mask32.

(** _hash.py:32-38 *)
Definition fmix (h : Z) : Z :=
  let h := Z.lxor h (Z.shiftr h 16) in
  let h := Z.land (h * 0x85EBCA6B) mask32 in
  let h := Z.lxor h (Z.shiftr h 13) in
  let h := Z.land (h * 0xC2B2AE35) mask32 in
  Z.lxor h (Z.shiftr h 16).

(** _hash.py:58-60, 79-81 *)
Definition mix_k (k1 : Z) : Z :=
  let k1 := Z.land (h_c1 * k1) mask32 in
  let k1 := rotl k1 15 in
  Z.land (h_c2 * k1) mask32.

(** _hash.py:51-64: one 4-byte block *)
Definition hash_block (h1 b0 b1 b2 b3 : Z) : Z :=
  let k1 := Z.lor (Z.lor (Z.lor (Z.shiftl b3 24) (Z.shiftl b2 16)) (Z.shiftl b1 8)) b0 in
  let h1 := Z.lxor h1 (mix_k k1) in
  let h1 := rotl h1 13 in
  Z.land (h1 * 5 + 0xE6546B64) mask32.

(** _hash.py:49-82: the blocks, then the tail of at most three bytes *)
Fixpoint hash_body (h1 : Z) (key : list Z) : Z :=
  match key with
  | b0 :: b1 :: b2 :: b3 :: rest => hash_body (hash_block h1 b0 b1 b2 b3) rest
  | [b0; b1; b2] => Z.lxor h1 (mix_k (Z.lxor (Z.lxor (Z.lxor 0 (Z.shiftl b2 16)) (Z.shiftl b1 8)) b0))
  | [b0; b1] => Z.lxor h1 (mix_k (Z.lxor (Z.lxor 0 (Z.shiftl b1 8)) b0))
  | [b0] => Z.lxor h1 (mix_k (Z.lxor 0 b0))
  | [] => h1
  end.

(** _hash.py:27-89 [_hash] on bytes.  Simplification: [int(length / 4)] is
    taken as exact integer division (true below 2^53 bytes). *)
Definition hash_bytes (key : list Z) (seed : Z) : Z :=
  let u := fmix (Z.lxor (hash_body seed key) (Z.of_nat (List.length key))) in
  if (Z.land u 0x80000000 =? 0)%Z then u else (- (Z.lxor u mask32 + 1))%Z.
Definition hash (key : pystr) (seed : Z) : res Z :=
  bs <- utf8 key ;; Ok (hash_bytes bs seed).

Section Hashing.
  Context {A : arith}.

  (** A feature value: a string or a number (_hash.py:99-103). *)
  Inductive fval := FStr (s : pystr) | FNum (x : A).

  (** _hash.py:97-112: one row *)
  Definition hash_row (n_features : Z) (alt : bool) (seed : Z) (x : list (pystr * fval))
    : res (dict Z A) :=
    foldM (fun row fv =>
             let '(f, value) := match snd fv with
                                | FStr s => (fst fv ++ lit "=" ++ s, one)
                                | FNum v => (fst fv, v)
                                end in
             if eqb value zero then Ok row
             else
               h <- hash f seed ;;
               let index := (Z.abs h mod n_features)%Z in
               let value := if alt then mul value (ofZ (if (0 <=? h)%Z then 1 else -1)) else value in
               Ok (dset Z.eqb index value row)) x [].

  (** _hash.py:92-114 [_hashing_transform]; rows may come from a generator that
      itself raises, hence [res] *)
  Definition hashing_transform (raw : list (res (list (pystr * fval)))) (n_features : Z)
             (dt : dtype) (alt : bool) (seed : Z) : res (arr A) :=
    guard (0 <? n_features)%Z AssertionError ;;
    rows <- mapM (fun rx => x <- rx ;; hash_row n_features alt seed x) raw ;;
    sparse_list rows (Some n_features) dt.

  (** _hash.py:130-143 [_validate_params] (n_features is an int) *)
  Definition validate_hasher (n_features : Z) (input_type : pystr) : res unit :=
    guard (negb ((n_features <? 1) || (2147483648 <=? n_features)))%Z ValueError ;;
    guard (mem str_eqb input_type [lit "dict"; lit "pair"; lit "string"]) ValueError.

  (** _hash.py:145-154 [transform] for input_type "string": every token has
      value 1. *)
  Definition hasher_transform_string (n_features : Z) (dt : dtype) (alt : bool)
             (raw : list (res (list pystr))) : res (arr A) :=
    validate_hasher n_features (lit "string") ;;
    hashing_transform (map (fun rx => x <- rx ;; Ok (map (fun f => (f, FNum one)) x)) raw)
                      n_features dt alt 0.
  (** _hash.py:145-154 for input_type "pair" *)
  Definition hasher_transform_pair (n_features : Z) (dt : dtype) (alt : bool)
             (raw : list (list (pystr * fval))) : res (arr A) :=
    validate_hasher n_features (lit "pair") ;;
    hashing_transform (map Ok raw) n_features dt alt 0.
  (** _hash.py:148-149 for input_type "dict": [_iteritems] is not defined, so
      consuming the first row raises NameError. *)
  Definition hasher_transform_dict (n_features : Z) (dt : dtype) (alt : bool)
             (raw : list (list (pystr * fval))) : res (arr A) :=
    validate_hasher n_features (lit "dict") ;;
    hashing_transform (map (fun _ => Err NameError) raw) n_features dt alt 0.
End Hashing.
Arguments fval A : clear implicits.
