(** Model of pure_fasttext/FastText.py. *)
From Coq Require Import String.
From Verif Require Import Model.Py Model.Arith Model.Utils Model.Base Model.Text.

Section FastText.
  Context {A : arith}.
  Variable U : textlib.

  (** FastText.py:64-80: attributes.  [f_sup] is None for an unsupervised
      model, else (loss_, labels_, output_matrix_). *)
  Record fasttext := {
    f_words : list pystr;
    f_input : list (list A);
    f_dim : Z;
    f_sup : option (pystr * list pystr * list (list A));
  }.

  (** What [__init__] reads from the fasttext model. *)
  Record ft_src := {
    fs_label : pystr; fs_labels : list pystr; fs_maxn : Z; fs_loss : pystr;
    fs_words : list pystr; fs_input : list (list A); fs_dim : Z;
    fs_output : list (list A) }.

  (** FastText.py:64-80 [__init__]; both [in] tests are substring tests *)
  Definition ft_convert (s : ft_src) : res fasttext :=
    l0 <- lnth (fs_labels s) 0 ;;
    let sup := str_in (fs_label s) l0 in
    guard (negb (negb (fs_maxn s =? 0)%Z && negb sup)) ValueError ;;
    guard (negb (sup && negb (str_in (fs_loss s) (lit "softmax")))) OtherException ;;
    Ok {| f_words := fs_words s; f_input := fs_input s; f_dim := fs_dim s;
          f_sup := if sup then Some (fs_loss s, fs_labels s, fs_output s) else None |}.

  (** FastText.py:116-124 *)
  Definition get_word_id (f : fasttext) (w : pystr) : Z :=
    match index_of str_eqb w (f_words f) with Some i => Z.of_nat i | None => (-1)%Z end.
  (** FastText.py:126-130 *)
  Definition get_input_vector (f : fasttext) (i : Z) : res (list A) := lget (f_input f) i.
  (** FastText.py:82-88 *)
  Definition get_word_vector (f : fasttext) (w : pystr) : res (list A) :=
    let i := get_word_id f w in
    if (0 <=? i)%Z then get_input_vector f i
    else Ok (rep zero (Z.to_nat (f_dim f))).

  (** FastText.py:11-13 *)
  Definition l2_norm (l : list A) : res A := qs <- mapM sqr l ;; sqrtv (psum qs).
  (** FastText.py:16-22 *)
  Definition div_norm (l : list A) : res (list A) :=
    n <- l2_norm l ;;
    if gtb n zero then mapM (fun x => r <- div one n ;; Ok (mul x r)) l else Ok l.
  (** FastText.py:25-34 *)
  Definition ft_dot (a : list A) (B : list (list A)) : list A :=
    map (fun Bi => psum (zip_with mul a Bi)) B.
  (** FastText.py:37-40 *)
  Definition ft_sfmax (l : list A) : res (list A) :=
    es <- mapM (fun x => m <- pymax gtb l ;; expv (sub x m)) l ;;
    mapM (fun e => div e (psum es)) es.
  (** FastText.py:48-55 *)
  Definition average (M : list (list A)) : res (list A) :=
    mapM (fun col => div (psum col) (ofnat (List.length M))) (zipstar M).

  (** FastText.py:43-45 [argsort]: Python's stable sort of the indices by value.
      Stable insertion sort computes the same list whenever the values are
      totally ordered, i.e. without NaN. *)
  Fixpoint insert_idx (x : A * nat) (l : list (A * nat)) : list (A * nat) :=
    match l with
    | [] => [x]
    | y :: t => if ltb (fst x) (fst y) then x :: l else y :: insert_idx x t
    end.
  Definition argsort (l : list A) : list nat :=
    map snd (fold_left (fun acc x => insert_idx x acc)
                       (combine l (range (List.length l))) []).

  Definition EOS : pystr := lit "</s>".

  (** FastText.py:90-114 *)
  Definition get_sentence_vector (f : fasttext) (text : pystr) : res (list A) :=
    guard (negb (mem Z.eqb 10%Z text)) ValueError ;;
    let words := str_split U (text ++ [10%Z]) in
    let known ws := filter (fun w => mem str_eqb w (f_words f)) ws in
    match f_sup f with
    | Some _ => vs <- mapM (get_word_vector f) (known (words ++ [EOS])) ;; average vs
    | None => vs <- mapM (get_word_vector f) (known words) ;;
              ns <- mapM div_norm vs ;; average ns
    end.

  (** FastText.py:132-142 *)
  Definition ft_predict1 (f : fasttext) (text : pystr) (k : Z) (threshold : A)
    : res (list pystr * list A) :=
    v <- get_sentence_vector f text ;;
    match f_sup f with
    | None => Err AttributeError
    | Some (loss, labels, output) =>
        guard (str_eqb loss (lit "softmax")) ValueError ;;
        preds <- ft_sfmax (ft_dot v output) ;;
        kept <- mapM (fun i => p <- lnth preds i ;; Ok (i, geb p threshold)) (rev (argsort preds)) ;;
        let argsorted := map fst (filter snd kept) in
        ls <- mapM (lnth labels) (slice_to argsorted k) ;;
        ps <- mapM (lnth preds) (slice_to argsorted k) ;;
        Ok (ls, ps)
    end.

  (** The argument of [predict]: a string or a list of strings. *)
  Inductive ftext := One (s : pystr) | Many (l : list pystr).

  (** FastText.py:144-165 [predict]; [self.f] does not exist *)
  Definition ft_predict (f : fasttext) (text : ftext) (k : Z) (threshold : A)
    : res (list pystr * list A) :=
    match f_sup f with
    | None => Err ValueError
    | Some _ =>
        match text with
        | Many _ => Err AttributeError
        | One s => ft_predict1 f s k threshold
        end
    end.
End FastText.
Arguments fasttext A : clear implicits.
Arguments ft_src A : clear implicits.
