(** Model of the fragment of Python the library is written in: exceptions as
    values, list indexing, dicts, [max], [list.index], slices, [zip].
    These are models of CPython builtins (not of a file in /repo); every use
    site cites the /repo line that calls them. *)
From Coq Require Export List ZArith Bool.
From Coq Require String Ascii.
Export ListNotations.

(** Exception classes.  Messages are not modelled.  [Diverges] is not a Python
    exception: it marks exhausted fuel of a [while] loop. *)
Inductive exn :=
| ValueError | TypeError | IndexError | KeyError | ZeroDivisionError
| OverflowError | AttributeError | NameError | NotImplementedError
| AssertionError | UnicodeError | OtherException | Diverges.

Inductive res (A : Type) : Type := Ok (a : A) | Err (e : exn).
Arguments Ok {A} a.
Arguments Err {A} e.

Definition bind {A B} (m : res A) (k : A -> res B) : res B :=
  match m with Ok a => k a | Err e => Err e end.

Declare Scope py_scope.
Delimit Scope py_scope with py.
Notation "x <- m ;; k" := (bind m (fun x => k))
  (at level 61, m at next level, right associativity) : py_scope.
Notation "' p <- m ;; k" := (bind m (fun p => k))
  (at level 61, p pattern, m at next level, right associativity) : py_scope.
Notation "m ;; k" := (bind m (fun _ => k))
  (at level 61, right associativity) : py_scope.
Open Scope py_scope.

(** [if c: raise e] *)
Definition guard (ok : bool) (e : exn) : res unit := if ok then Ok tt else Err e.

Definition is_ok {A} (r : res A) : bool := match r with Ok _ => true | _ => false end.

(** [[f(x) for x in l]]: left to right, first exception wins. *)
Fixpoint mapM {A B} (f : A -> res B) (l : list A) : res (list B) :=
  match l with
  | [] => Ok []
  | x :: t => y <- f x ;; ys <- mapM f t ;; Ok (y :: ys)
  end.

(** [for x in l: acc = f(acc, x)] *)
Fixpoint foldM {A B} (f : B -> A -> res B) (l : list A) (b : B) : res B :=
  match l with
  | [] => Ok b
  | x :: t => b' <- f b x ;; foldM f t b'
  end.

(** [l[n]] for an index known to be non-negative. *)
Definition lnth {A} (l : list A) (n : nat) : res A :=
  match nth_error l n with Some a => Ok a | None => Err IndexError end.

(** [l[i]] for an arbitrary int: negative indices count from the end. *)
Definition lget {A} (l : list A) (i : Z) : res A :=
  let n := Z.of_nat (length l) in
  let j := if (i <? 0)%Z then (i + n)%Z else i in
  if ((0 <=? j) && (j <? n))%Z then lnth l (Z.to_nat j) else Err IndexError.

(** [range(n)] for [n = len(...)]. *)
Definition range (n : nat) : list nat := seq 0 n.

(** [range(a, b)] over ints. *)
Definition zrange (a b : Z) : list Z :=
  map (fun i => (a + Z.of_nat i)%Z) (seq 0 (Z.to_nat (b - a))).

(** [l[a : a+n]] with [a, n >= 0]. *)
Definition slice {A} (l : list A) (a n : nat) : list A := firstn n (skipn a l).

(** [l[:k]]: a negative [k] counts from the end. *)
Definition slice_to {A} (l : list A) (k : Z) : list A :=
  if (k <? 0)%Z then firstn (Z.to_nat (Z.of_nat (length l) + k)) l
  else firstn (Z.to_nat k) l.

(** [map(f, a, b)] / [zip]: stops at the shorter argument. *)
Fixpoint zip_with {A B C} (f : A -> B -> C) (l : list A) (m : list B) : list C :=
  match l, m with
  | x :: l', y :: m' => f x y :: zip_with f l' m'
  | _, _ => []
  end.

(** [[x] * n] *)
Definition rep {A} (x : A) (n : nat) : list A := repeat x n.

(** [max(l)] with "greater than" [gt]: the first element, replaced by a later
    one only if that one is greater; [ValueError] on an empty list. *)
Fixpoint pymax_from {A} (gt : A -> A -> bool) (cur : A) (l : list A) : A :=
  match l with
  | [] => cur
  | x :: t => pymax_from gt (if gt x cur then x else cur) t
  end.
Definition pymax {A} (gt : A -> A -> bool) (l : list A) : res A :=
  match l with [] => Err ValueError | x :: t => Ok (pymax_from gt x t) end.

(** [l.index(v)]: first element equal to [v]; [ValueError] if there is none. *)
Fixpoint index_of {A} (eq : A -> A -> bool) (v : A) (l : list A) : option nat :=
  match l with
  | [] => None
  | x :: t => if eq x v then Some 0 else option_map S (index_of eq v t)
  end.
Definition list_index {A} (eq : A -> A -> bool) (v : A) (l : list A) : res nat :=
  match index_of eq v l with Some n => Ok n | None => Err ValueError end.

(** [x in l] *)
Definition mem {A} (eq : A -> A -> bool) (v : A) (l : list A) : bool :=
  existsb (fun x => eq x v) l.

(** Dicts: association lists in insertion order; an assignment to an existing
    key keeps its position, a new key is appended (CPython >= 3.6). *)
Definition dict (K V : Type) := list (K * V).

Fixpoint dlookup {K V} (eq : K -> K -> bool) (k : K) (d : dict K V) : option V :=
  match d with
  | [] => None
  | (k', v) :: t => if eq k k' then Some v else dlookup eq k t
  end.
(** [d[k]] *)
Definition dget {K V} (eq : K -> K -> bool) (d : dict K V) (k : K) : res V :=
  match dlookup eq k d with Some v => Ok v | None => Err KeyError end.
(** [d.get(k, default)] *)
Definition dget_default {K V} (eq : K -> K -> bool) (d : dict K V) (k : K) (v0 : V) : V :=
  match dlookup eq k d with Some v => v | None => v0 end.
(** [d[k] = v] *)
Fixpoint dset {K V} (eq : K -> K -> bool) (k : K) (v : V) (d : dict K V) : dict K V :=
  match d with
  | [] => [(k, v)]
  | (k', v') :: t => if eq k k' then (k', v) :: t else (k', v') :: dset eq k v t
  end.
(** [dict(items)] *)
Definition dict_of {K V} (eq : K -> K -> bool) (l : list (K * V)) : dict K V :=
  fold_left (fun d kv => dset eq (fst kv) (snd kv) d) l [].
Definition dmem {K V} (eq : K -> K -> bool) (k : K) (d : dict K V) : bool :=
  match dlookup eq k d with Some _ => true | None => false end.
Definition dkeys {K V} (d : dict K V) : list K := map fst d.
Definition dvalues {K V} (d : dict K V) : list V := map snd d.
(** [{k: f(v) for k, v in d.items()}] (keys unchanged, hence no collision) *)
Definition dmapM {K V W} (f : K -> V -> res W) (d : dict K V) : res (dict K W) :=
  mapM (fun kv => w <- f (fst kv) (snd kv) ;; Ok (fst kv, w)) d.

(** str: a list of Unicode code points. *)
Definition pystr := list Z.
Fixpoint str_eqb (s t : pystr) : bool :=
  match s, t with
  | [], [] => true
  | a :: s', b :: t' => (a =? b)%Z && str_eqb s' t'
  | _, _ => false
  end.
(** String literals. *)
Fixpoint lit (s : String.string) : pystr :=
  match s with
  | String.EmptyString => []
  | String.String c s' => Z.of_nat (Ascii.nat_of_ascii c) :: lit s'
  end.
Fixpoint str_prefix (s t : pystr) : bool :=
  match s, t with
  | [], _ => true
  | a :: s', b :: t' => (a =? b)%Z && str_prefix s' t'
  | _ :: _, [] => false
  end.
(** [s in t] for strings: substring test. *)
Fixpoint str_in (s t : pystr) : bool :=
  str_prefix s t || match t with [] => false | _ :: t' => str_in s t' end.
(** [s.replace(c, "")] for a one-character [c]. *)
Definition str_remove (c : Z) (s : pystr) : pystr := filter (fun x => negb (x =? c)%Z) s.
(** [s.split(c)] for a one-character separator [c]. *)
Fixpoint str_split_on (c : Z) (s : pystr) : list pystr :=
  match s with
  | [] => [[]]
  | x :: t =>
      if (x =? c)%Z then [] :: str_split_on c t
      else match str_split_on c t with
           | w :: ws => (x :: w) :: ws
           | [] => [[x]]
           end
  end.
(** [int(s)].  Simplification: only non-empty strings of ASCII digits are
    accepted; Python also takes signs, surrounding blanks and underscores. *)
Definition is_digit (c : Z) : bool := ((48 <=? c) && (c <=? 57))%Z.
Definition int_of_str (s : pystr) : res Z :=
  match s with
  | [] => Err ValueError
  | _ => if forallb is_digit s
         then Ok (fold_left (fun acc c => acc * 10 + (c - 48))%Z s 0%Z)
         else Err ValueError
  end.
(** [l[a:b]] for arbitrary ints. *)
Definition clamp_index (n i : Z) : Z :=
  if (i <? 0)%Z then Z.max 0 (i + n) else Z.min i n.
Definition pyslice {A} (l : list A) (a b : Z) : list A :=
  let n := Z.of_nat (length l) in
  let a' := clamp_index n a in
  let b' := clamp_index n b in
  firstn (Z.to_nat (b' - a')) (skipn (Z.to_nat a') l).
