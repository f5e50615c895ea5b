(** The tag stripper and the stop-word consistency check of the vectorizers
    (pure_sklearn/feature_extraction/text.py). *)
From Coq Require Import String.
From Verif Require Import Model.Py Model.Arith Model.Text Model.Convert.

(** What follows the first '>' of [s]. *)
Fixpoint past_gt (s : pystr) : option pystr :=
  match s with
  | [] => None
  | c :: t => if (c =? 62)%Z then Some t else past_gt t
  end.
(** What follows a match of [[^>]+>] at the start of [s]. *)
Definition past_body (s : pystr) : option pystr :=
  match s with
  | [] => None
  | c :: t => if (c =? 62)%Z then None else past_gt t
  end.
(** text.py:95-97 [strip_tags]: [re.compile(r"<([^>]+)>").sub(" ", s)].  [fuel]
    is an upper bound of the length of [s]. *)
Fixpoint strip_from (fuel : nat) (s : pystr) : pystr :=
  match fuel, s with
  | 0, _ | _, [] => []
  | S f, c :: t =>
      if (c =? 60)%Z then
        match past_body t with
        | Some r => 32%Z :: strip_from f r
        | None => c :: strip_from f t
        end
      else c :: strip_from f t
  end.
Definition strip_tags (s : pystr) : pystr := strip_from (List.length s) s.

(** [set.add] followed, in the end, by [sorted]: the set as its sorted list. *)
Fixpoint set_add (w : pystr) (l : list pystr) : list pystr :=
  match l with
  | [] => [w]
  | x :: t => if str_eqb w x then l else if str_ltb w x then w :: l else x :: set_add w t
  end.

(** The values [_check_stop_words_consistency] returns: None, True, False and
    "error". *)
Inductive verdict := Skipped | Consistent | Inconsistent | CheckFailed.

Section Stops.
  Variable U : textlib.

  (** text.py:254-259: the tokens of stop words that are no stop words.  The
      order in which the frozenset is iterated does not matter. *)
  Definition stray_tokens (c : textconf) (accent : pystr -> pystr) (stop : list pystr) : res (list pystr) :=
    foldM (fun acc w =>
             toks <- x_findall U (tc_pattern c) (preprocess U c accent w) ;;
             Ok (fold_left (fun acc t => if mem str_eqb t stop then acc else set_add t acc) toks acc))
          stop [].

  (** text.py:246-274 [_check_stop_words_consistency].  [ident] is
      [id(self.stop_words)], [last] the attribute [_stop_words_id]; [strict]:
      warnings are turned into exceptions.  The result is the value returned,
      the tokens listed by each warning shown, and the new attribute. *)
  Definition check_stops (c : textconf) (accent : pystr -> pystr) (stop : option (list pystr))
             (ident : Z) (strict : bool) (last : option Z) : verdict * list (list pystr) * option Z :=
    if match last with Some i => (i =? ident)%Z | None => false end then (Skipped, [], last)
    else
      match stray_tokens c accent (match stop with Some l => l | None => [] end) with
      | Err _ => (CheckFailed, [], Some ident)
      | Ok [] => (Consistent, [], Some ident)
      | Ok ts => if strict then (CheckFailed, [], Some ident) else (Inconsistent, [ts], Some ident)
      end.

  (** text.py:276-322 [build_analyzer] with the check: the analyzer, the
      warnings shown and the new attribute. *)
  Definition build_checked (c : textconf) (ident : Z) (strict : bool) (last : option Z) :
    res (doc -> res (list pystr)) * list (list pystr) * option Z :=
    match accent_fun U c with
    | Err e => (Err e, [], last)
    | Ok accent =>
        if str_eqb (tc_analyzer c) (lit "char") then
          (Ok (fun d => s <- decode U c d ;; Ok (char_ngrams U (tc_lo c) (tc_hi c) (preprocess U c accent s))), [], last)
        else if str_eqb (tc_analyzer c) (lit "char_wb") then
          (Ok (fun d => s <- decode U c d ;; Ok (char_wb_ngrams U (tc_lo c) (tc_hi c) (preprocess U c accent s))), [], last)
        else if str_eqb (tc_analyzer c) (lit "word") then
          match check_stop_list (tc_stop c) with
          | Err e => (Err e, [], last)
          | Ok stop =>
              let '(_, warned, last') := check_stops c accent stop ident strict last in
              (Ok (fun d => s <- decode U c d ;;
                            toks <- x_findall U (tc_pattern c) (preprocess U c accent s) ;;
                            Ok (word_ngrams (tc_lo c) (tc_hi c) stop toks)), warned, last')
          end
        else (Err ValueError, [], last)
    end.

  (** The analyzers built in turn by one vectorizer (each transform builds
      one), with the [stop_words] object it has at that time: the warnings of
      each. *)
  Fixpoint warnings_of (calls : list (textconf * Z * bool)) (last : option Z) : list (list (list pystr)) :=
    match calls with
    | [] => []
    | (c, ident, strict) :: rest =>
        let '(_, warned, last') := build_checked c ident strict last in
        warned :: warnings_of rest last'
    end.
End Stops.
