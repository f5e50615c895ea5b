(** Lists returned to the caller that are lists of the model itself, and what
    happens when the caller modifies them (dummy.py, pipeline.py, FastText.py). *)
From Coq Require Import String.
From Verif Require Import Model.Py Model.Arith Model.Utils Model.Base Model.Text Model.Dummy
  Model.Pipeline Model.Est Model.FastText.

Section Estimators.
  Context {A : arith} {L V : Type}.
  Variable (veq : V -> V -> bool).
  Variable (vnum : A -> V).
  Variable (U : textlib).

  (** Whether predict_proba returns lists of the model: dummy.py:37,
      [[self.class_prior_] * len(X)], possibly through pipeline.py:117.  In all
      other methods of all classes the returned lists are built by the call:
      list comprehensions, [apply_2d], [operate_2d], [transpose] (base.py),
      [sparse_list(...)]; ensembles average their members' lists into new
      ones (_bagging.py:36-44).  (transform may return its argument, which is
      the caller's.) *)
  Fixpoint shares (e : est A L V) : bool :=
    match e with
    | EDummy _ => true
    | EPipeline steps => last (map (fun ne => shares (snd ne)) steps) false
    | _ => false
    end.

  (** The estimator after the shared list's contents became [row]. *)
  Fixpoint set_prior (row : list A) (e : est A L V) : est A L V :=
    match e with
    | EDummy _ => EDummy {| dm_prior := row |}
    | EPipeline steps =>
        EPipeline ((fix go l := match l with
                                | [] => []
                                | [ne] => [(fst ne, set_prior row (snd ne))]
                                | ne :: t => ne :: go t
                                end) steps)
    | _ => e
    end.

  Inductive meth := MTransform | MPredict | MProba | MLogProba.

  (** An object the caller got from a call: [Aliased n], a list of [n]
      references to the model's list; [Own], lists made by the call. *)
  Inductive held := Own | Aliased (n : nat).

  (** [Call m X]: a method call.  [Write j i row]: row [i] of the [j]-th
      result is given the contents [row], e.g. by [res[i][:] = row] or by
      assigning, appending and deleting items. *)
  Inductive event := Call (m : meth) (X : data A V) | Write (j i : nat) (row : list A).

  Definition step (s : est A L V * list held) (ev : event) : est A L V * list held :=
    let '(e, hs) := s in
    match ev with
    | Call m X =>
        (e, hs ++ [match m, o_proba (obj_of veq vnum U e) with
                   | MProba, Some f =>
                       if shares e then match fst (f X) with
                                        | Ok P => Aliased (List.length P)
                                        | Err _ => Own
                                        end
                       else Own
                   | _, _ => Own
                   end])
    | Write j i row =>
        match nth_error hs j with
        | Some (Aliased n) => if (i <? n)%nat then (set_prior row e, hs) else s
        | _ => s
        end
    end.
  (** The estimator after a history of calls and modifications. *)
  Definition after (e : est A L V) (history : list event) : est A L V :=
    fst (fold_left step history (e, [])).
End Estimators.

Section FastText.
  Context {A : arith}.

  (** FastText.py:82-88, 126-130: the row of [input_matrix_] that
      get_input_vector / get_word_vector returns, if any; get_sentence_vector
      and predict build new lists (FastText.py:55, 140-142). *)
  Inductive fcall := FInput (i : Z) | FWord (w : pystr) | FSentence (t : pystr)
    | FPredict (t : ftext) (k : Z) (threshold : A).
  Definition shared_row (f : fasttext A) (c : fcall) : option nat :=
    let row i := if ((- Z.of_nat (List.length (f_input f)) <=? i) && (i <? Z.of_nat (List.length (f_input f))))%Z
                 then Some (Z.to_nat (if (i <? 0)%Z then i + Z.of_nat (List.length (f_input f)) else i))
                 else None in
    match c with
    | FInput i => row i
    | FWord w => if (0 <=? get_word_id f w)%Z then row (get_word_id f w) else None
    | FSentence _ | FPredict _ _ _ => None
    end.
  Definition set_row (f : fasttext A) (r : nat) (row : list A) : fasttext A :=
    {| f_words := f_words f;
       f_input := firstn r (f_input f) ++ row :: skipn (S r) (f_input f);
       f_dim := f_dim f; f_sup := f_sup f |}.

  (** [FCall c]: a call; [FWrite j row]: the [j]-th returned vector is given
      the contents [row]. *)
  Inductive fevent := FCall (c : fcall) | FWrite (j : nat) (row : list A).
  Definition fstep (s : fasttext A * list (option nat)) (ev : fevent) : fasttext A * list (option nat) :=
    let '(f, hs) := s in
    match ev with
    | FCall c => (f, hs ++ [shared_row f c])
    | FWrite j row =>
        match nth_error hs j with
        | Some (Some r) => (set_row f r row, hs)
        | _ => s
        end
    end.
  Definition fafter (f : fasttext A) (history : list fevent) : fasttext A :=
    fst (fold_left fstep history (f, [])).
End FastText.
Arguments event A V : clear implicits.
Arguments fcall A : clear implicits.
Arguments fevent A : clear implicits.
