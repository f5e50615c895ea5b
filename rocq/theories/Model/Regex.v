(** The part of Python's [re] that the patterns of
    pure_sklearn/feature_extraction/text.py use: character classes, greedy
    [class+], [\b] and concatenation, matched by backtracking. *)
From Coq Require Import String.
From Verif Require Import Model.Py Model.Arith Model.Text.

Inductive rx :=
| Chr (p : Z -> bool)       (* one character of a class *)
| Many (p : Z -> bool)      (* class+ *)
| Boundary                  (* \b *)
| Cat (a b : rx).

(** A position: the character before it, if any, and the text after it. *)
Definition pos := (option Z * list Z)%type.

Section Match.
  Variable word : Z -> bool.   (* re's \w *)

  Definition word_at (o : option Z) : bool := match o with Some c => word c | None => false end.

  (** Where [class+] can end, longest first. *)
  Fixpoint runs (p : Z -> bool) (s : pystr) : list pos :=
    match s with
    | [] => []
    | c :: t => if p c then runs p t ++ [(Some c, t)] else []
    end.
  (** Where a match that starts at a position can end, in the order in which
      [re] tries. *)
  Fixpoint ways (r : rx) (st : pos) : list pos :=
    match r with
    | Chr p => match snd st with c :: t => if p c then [(Some c, t)] else [] | [] => [] end
    | Many p => runs p (snd st)
    | Boundary => if xorb (word_at (fst st)) (word_at (hd_error (snd st))) then [st] else []
    | Cat a b => flat_map (ways b) (ways a st)
    end.
  Definition first_match (r : rx) (st : pos) : option pos := hd_error (ways r st).

  (** [findall] and [sub], from a position on.  Simplification: for patterns
      that match no empty text.  [fuel] is an upper bound of the length. *)
  Fixpoint find_from (fuel : nat) (r : rx) (st : pos) : list pystr :=
    match fuel, snd st with
    | 0, _ | _, [] => []
    | S f, c :: t =>
        match first_match r st with
        | Some (b, u) => firstn (List.length (snd st) - List.length u) (snd st) :: find_from f r (b, u)
        | None => find_from f r (Some c, t)
        end
    end.
  Definition re_findall (r : rx) (s : pystr) : list pystr := find_from (List.length s) r (None, s).
  Fixpoint sub_from (fuel : nat) (r : rx) (by_ : pystr) (st : pos) : pystr :=
    match fuel, snd st with
    | 0, _ | _, [] => []
    | S f, c :: t =>
        match first_match r st with
        | Some (b, u) => by_ ++ sub_from f r by_ (b, u)
        | None => c :: sub_from f r by_ (Some c, t)
        end
    end.
  Definition re_sub (r : rx) (by_ : pystr) (s : pystr) : pystr := sub_from (List.length s) r by_ (None, s).

  (** text.py:239 with scikit-learn's default token_pattern [(?u)\b\w\w+\b] *)
  Definition token_rx : rx := Cat Boundary (Cat (Chr word) (Cat (Many word) Boundary)).
  (** the same with the common [(?u)\b\w+\b] *)
  Definition token1_rx : rx := Cat Boundary (Cat (Many word) Boundary).
End Match.
(** text.py:97 [<([^>]+)>] *)
Definition tag_rx : rx :=
  Cat (Chr (fun c => (c =? 60)%Z)) (Cat (Many (fun c => negb (c =? 62)%Z)) (Chr (fun c => (c =? 62)%Z))).
(** text.py:116 [\s\s+] *)
Definition spaces_rx (space : Z -> bool) : rx := Cat (Chr space) (Many space).

(** text.py:235-240 [build_tokenizer] for the default pattern: what [U] finds
    with it is what the matcher finds. *)
Definition default_pattern : pystr := lit "(?u)\b\w\w+\b".
Definition default_tokens (U : textlib) (word : Z -> bool) : Prop :=
  forall s, x_findall U default_pattern s = Ok (re_findall word (token_rx word) s).
