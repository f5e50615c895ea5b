(** Specification vocabulary for the text vectorizers. *)
From Coq Require Import String.
From Verif Require Import Model.Py Model.Arith Spec.Matrix.

(** The contiguous windows of length [k], left to right. *)
Fixpoint windows {T} (k : nat) (l : list T) : list (list T) :=
  match l with
  | [] => []
  | _ :: t => (if (k <=? length l)%nat then [firstn k l] else []) ++ windows k t
  end.
(** [lo; lo+1; ...; hi] *)
Definition upto (lo hi : nat) : list nat := seq lo (hi + 1 - lo).
(** All windows of lengths [lo] to [hi], by length and then by position. *)
Definition grams {T} (lo hi : nat) (l : list T) : list (list T) := concat (map (fun k => windows k l) (upto lo hi)).
(** Words joined by single spaces. *)
Definition joined (l : list pystr) : pystr :=
  match l with [] => [] | w :: t => w ++ concat (map (fun x => 32%Z :: x) t) end.
(** The tokens that are not stop words, in order. *)
Inductive unstopped (stop : list pystr) : list pystr -> list pystr -> Prop :=
| us_nil : unstopped stop [] []
| us_drop : forall w l m, In w stop -> unstopped stop l m -> unstopped stop (w :: l) m
| us_keep : forall w l m, ~ In w stop -> unstopped stop l m -> unstopped stop (w :: l) (w :: m).

Section Spaces.
  Variable space : Z -> bool.
  (** The text does not start with white space. *)
  Definition no_space_first (s : pystr) : Prop := match s with [] => True | c :: _ => space c = false end.
  (** Every maximal run of two or more white space characters is replaced by
      one space; everything else is kept. *)
  Inductive collapsed : pystr -> pystr -> Prop :=
  | cl_nil : collapsed [] []
  | cl_char : forall c s t, space c = false -> collapsed s t -> collapsed (c :: s) (c :: t)
  | cl_one : forall c s t, space c = true -> no_space_first s -> collapsed s t -> collapsed (c :: s) (c :: t)
  | cl_run : forall run s t, Forall (fun c => space c = true) run -> (2 <= length run)%nat -> no_space_first s ->
      collapsed s t -> collapsed (run ++ s) (32%Z :: t).
  (** The words of a text: its maximal runs of non-space characters. *)
  Inductive words : pystr -> list pystr -> Prop :=
  | wd_nil : words [] []
  | wd_space : forall c s ws, space c = true -> words s ws -> words (c :: s) ws
  | wd_word : forall w s ws, w <> [] -> Forall (fun c => space c = false) w ->
      match s with [] => True | c :: _ => space c = true end -> words s ws -> words (w ++ s) (w :: ws).
End Spaces.
(** The n-grams of a word between spaces: its windows, or the padded word
    itself, once, when it is shorter than every wanted length. *)
Definition padded_grams (lo hi : nat) (w : pystr) : list pystr :=
  let p := 32%Z :: w ++ [32%Z] in
  if (length p <? lo)%nat then [p] else grams lo hi p.

(** Number of occurrences of a term. *)
Fixpoint occurrences (t : pystr) (l : list pystr) : nat :=
  match l with [] => 0 | x :: l' => (if list_eq_dec Z.eq_dec x t then 1 else 0) + occurrences t l' end.
(** A vocabulary: distinct terms with distinct columns 0 .. n-1. *)
Definition vocabulary (v : dict pystr Z) : Prop :=
  NoDup (map fst v) /\ NoDup (map snd v) /\ forall t j, In (t, j) v -> (0 <= j < Z.of_nat (length v))%Z.
(** Row [r] holds [f t] in the column of every term [t] of the vocabulary (0 if
    the column is not stored) and nothing in any other column. *)
Definition term_row {A : arith} (v : dict pystr Z) (f : pystr -> A) (r : dict Z A) : Prop :=
  NoDup (map fst r) /\
  (forall j x, In (j, x) r -> exists t, In (t, j) v /\ x = f t) /\
  (forall t j, In (t, j) v -> In (j, f t) r \/ (~ In j (map fst r) /\ is0 (f t))).

(** Column weights: cell [x] of column [j] becomes [x * idf_j]. *)
Definition weighted {A : arith} (idf : list A) (j : nat) (x v : A) : Prop :=
  exists w, nth_error idf j = Some w /\ v = mul x w.
