(** Model of pure_sklearn/feature_extraction/text.py. *)
From Coq Require Import String.
From Verif Require Import Model.Py Model.Arith Model.Utils Model.Base Model.Preprocessing Model.Hash.

(** The parts of Python's str / re / unicodedata that depend on the Unicode
    database, as parameters. *)
Record textlib := {
  x_lower : pystr -> pystr;                       (* str.lower *)
  x_nfkd : pystr -> pystr;                        (* unicodedata.normalize("NFKD", s) *)
  x_combining : Z -> bool;                        (* unicodedata.combining(c) != 0 *)
  x_space : Z -> bool;                            (* str.isspace of one character; also re's \s *)
  x_findall : pystr -> pystr -> res (list pystr); (* re.compile(p).findall(s) *)
  x_decode : pystr -> pystr -> list Z -> res pystr; (* bytes.decode(encoding, errors) *)
}.

(** A document (text.py:118-135). *)
Inductive doc := DocStr (s : pystr) | DocBytes (b : list Z) | DocNaN | DocOther.

(** The [stop_words] parameter. *)
Inductive stops := SWNone | SWStr (s : pystr) | SWList (l : list pystr).

(** The text parameters shared by the vectorizers (text.py:336-348, 459-469).
    Callable analyzer / preprocessor / tokenizer / strip_accents are rejected
    by check_types at conversion and are therefore absent.  Simplification:
    input = "content" only (no file reading). *)
Record textconf := {
  tc_analyzer : pystr;
  tc_strip : option pystr;    (* strip_accents; None = falsy *)
  tc_lower : bool;
  tc_stop : stops;
  tc_pattern : pystr;
  tc_lo : Z;
  tc_hi : Z;
  tc_encoding : pystr;
  tc_errors : pystr;
}.

Section Text.
  Variable U : textlib.

  (** text.py:116,170,193: [re.compile(r"\s\s+").sub(" ", s)].  [pend] is the
      pending white space: nothing, one character, or a run of two or more. *)
  Definition ws_flush (pend : option (Z * bool)) : pystr :=
    match pend with
    | None => []
    | Some (c, false) => [c]
    | Some (_, true) => [32%Z]
    end.
  Fixpoint ws_collapse (pend : option (Z * bool)) (s : pystr) : pystr :=
    match s with
    | [] => ws_flush pend
    | c :: t =>
        if x_space U c then
          ws_collapse (match pend with None => Some (c, false) | Some (c0, _) => Some (c0, true) end) t
        else ws_flush pend ++ c :: ws_collapse None t
    end.
  Definition white_spaces_sub (s : pystr) : pystr := ws_collapse None s.

  (** [s.split()]; [cur] is the word being read. *)
  Fixpoint split_ws (cur : pystr) (s : pystr) : list pystr :=
    match s with
    | [] => match cur with [] => [] | _ => [cur] end
    | c :: t =>
        if x_space U c then
          match cur with [] => split_ws [] t | _ => cur :: split_ws [] t end
        else split_ws (cur ++ [c]) t
    end.
  Definition str_split (s : pystr) : list pystr := split_ws [] s.

  (** [" ".join(l)] *)
  Fixpoint space_join (l : list pystr) : pystr :=
    match l with
    | [] => []
    | [w] => w
    | w :: t => w ++ 32%Z :: space_join t
    end.

  (** text.py:77-86: encoding to ASCII fails iff some code point is >= 128 *)
  Definition strip_accents_unicode (s : pystr) : pystr :=
    if forallb (fun c => (c <? 128)%Z) s then s
    else filter (fun c => negb (x_combining U c)) (x_nfkd U s).
  (** text.py:89-92 *)
  Definition strip_accents_ascii (s : pystr) : pystr :=
    filter (fun c => (c <? 128)%Z) (x_nfkd U s).

  (** text.py:214-233 [build_preprocessor]: which accent function *)
  Definition accent_fun (c : textconf) : res (pystr -> pystr) :=
    match tc_strip c with
    | None => Ok (fun s => s)
    | Some k =>
        if str_eqb k (lit "ascii") then Ok strip_accents_ascii
        else if str_eqb k (lit "unicode") then Ok strip_accents_unicode
        else Err ValueError
    end.
  (** text.py:34-43 [_preprocess] *)
  Definition preprocess (c : textconf) (accent : pystr -> pystr) (s : pystr) : pystr :=
    accent (if tc_lower c then x_lower U s else s).

  (** text.py:100-110 [_check_stop_list] *)
  Definition check_stop_list (s : stops) : res (option (list pystr)) :=
    match s with
    | SWStr _ => Err ValueError
    | SWNone => Ok None
    | SWList l => Ok (Some l)
    end.

  (** text.py:118-135 [decode] *)
  Definition decode (c : textconf) (d : doc) : res pystr :=
    match d with
    | DocStr s => Ok s
    | DocBytes b => x_decode U (tc_encoding c) (tc_errors c) b
    | DocNaN => Err ValueError
    | DocOther => Err TypeError
    end.

  (** text.py:137-165 [_word_ngrams] *)
  Definition word_ngrams (lo hi : Z) (stop : option (list pystr)) (tokens : list pystr) : list pystr :=
    let tokens := match stop with
                  | None => tokens
                  | Some st => filter (fun w => negb (mem str_eqb w st)) tokens
                  end in
    if (hi =? 1)%Z then tokens
    else
      let '(start, lo') := if (lo =? 1)%Z then (tokens, 2%Z) else ([], lo) in
      let n := Z.of_nat (List.length tokens) in
      start ++
      concat (map (fun k => map (fun i => space_join (pyslice tokens i (i + k)))
                                (zrange 0 (n - k + 1)))
                  (zrange lo' (Z.min (hi + 1) (n + 1)))).

  (** text.py:167-188 [_char_ngrams] *)
  Definition char_ngrams (lo hi : Z) (text : pystr) : list pystr :=
    let s := white_spaces_sub text in
    let n := Z.of_nat (List.length s) in
    let '(start, lo') := if (lo =? 1)%Z then (map (fun c => [c]) s, 2%Z) else ([], lo) in
    start ++
    concat (map (fun k => map (fun i => pyslice s i (i + k)) (zrange 0 (n - k + 1)))
                (zrange lo' (Z.min (hi + 1) (n + 1)))).

  (** text.py:204-211: the loop over n for one padded word; [ks] are the
      remaining values of n.  The inner while appends the windows at offsets
      0 .. max 0 (len - n); it stops the outer loop when no shift happened. *)
  Fixpoint wb_word (w : pystr) (ks : list Z) : list pystr :=
    match ks with
    | [] => []
    | k :: ks' =>
        let last := Z.max 0 (Z.of_nat (List.length w) - k) in
        map (fun off => pyslice w off (off + k)) (zrange 0 (last + 1)) ++
        (if (last =? 0)%Z then [] else wb_word w ks')
    end.
  (** text.py:190-212 [_char_wb_ngrams] *)
  Definition char_wb_ngrams (lo hi : Z) (text : pystr) : list pystr :=
    concat (map (fun w => wb_word (32%Z :: w ++ [32%Z]) (zrange lo (hi + 1)))
                (str_split (white_spaces_sub text))).

  (** text.py:276-322 [build_analyzer] and :46-74 [_analyze].  The stop-word
      consistency check (:246-274) catches every exception and has no effect on
      the result. *)
  Definition build_analyzer (c : textconf) : res (doc -> res (list pystr)) :=
    accent <- accent_fun c ;;
    if str_eqb (tc_analyzer c) (lit "char") then
      Ok (fun d => s <- decode c d ;; Ok (char_ngrams (tc_lo c) (tc_hi c) (preprocess c accent s)))
    else if str_eqb (tc_analyzer c) (lit "char_wb") then
      Ok (fun d => s <- decode c d ;; Ok (char_wb_ngrams (tc_lo c) (tc_hi c) (preprocess c accent s)))
    else if str_eqb (tc_analyzer c) (lit "word") then
      stop <- check_stop_list (tc_stop c) ;;
      Ok (fun d => s <- decode c d ;;
                   toks <- x_findall U (tc_pattern c) (preprocess c accent s) ;;
                   Ok (word_ngrams (tc_lo c) (tc_hi c) stop toks))
    else Err ValueError.

  Context {A : arith}.

  (** [raw_documents]: a string or an iterable of documents *)
  Inductive rawdocs := RawStr (s : pystr) | RawDocs (l : list doc).

  (** text.py:333-349 *)
  Record countvec := {
    cv_conf : textconf;
    cv_vocab : dict pystr Z;
    cv_binary : bool;
    cv_dtype : dtype;
  }.

  (** text.py:357-367: the counter of one document *)
  Definition count_features (vocab : dict pystr Z) (feats : list pystr) : dict Z A :=
    fold_left (fun cnt f =>
                 match dlookup str_eqb f vocab with
                 | None => cnt
                 | Some j =>
                     match dlookup Z.eqb j cnt with
                     | None => dset Z.eqb j one cnt
                     | Some v => dset Z.eqb j (add v one) cnt
                     end
                 end) feats [].

  (** text.py:351-369 [_count_vocab] *)
  Definition count_vocab (v : countvec) (docs : list doc) : res (arr A) :=
    an <- build_analyzer (cv_conf v) ;;
    data <- mapM (fun d => fs <- an d ;; Ok (count_features (cv_vocab v) fs)) docs ;;
    sparse_list data (Some (Z.of_nat (List.length (cv_vocab v)))) (cv_dtype v).

  (** [[dict.fromkeys(x, 1) for x in X]]: a *plain list* of dicts *)
  Definition binarize (X : arr A) : res (arr A) :=
    l <- items X ;;
    rows <- mapM (fun x => match x with
                           | Di d => Ok (Di (map (fun kv => (fst kv, one)) d))
                           | _ => Err TypeError
                           end) l ;;
    Ok (Arr rows).

  (** text.py:371-381 *)
  Definition count_transform (v : countvec) (raw : rawdocs) : res (arr A) :=
    match raw with
    | RawStr _ => Err ValueError
    | RawDocs docs =>
        X <- count_vocab v docs ;;
        if cv_binary v then binarize X else Ok X
    end.

  (** text.py:411-419; [tf_norm] None = falsy *)
  Record tfidf := {
    tf_norm : option pystr;
    tf_use_idf : bool;
    tf_sublinear : bool;
    tf_idf : list A;
    tf_expected : Z;
  }.

  (** text.py:437-438: [for k, v in X[index].items(): X[index][k] = v * idf_[k]].
      The row is updated in place, also when a later key raises. *)
  Fixpoint idf_row (idf : list A) (done todo : dict Z A) : res (dict Z A) * dict Z A :=
    match todo with
    | [] => (Ok done, done)
    | (k, v) :: t =>
        match lget idf k with
        | Ok w => idf_row idf (done ++ [(k, mul v w)]) t
        | Err e => (Err e, done ++ (k, v) :: t)
        end
    end.
  (** text.py:436-438 over all rows: outcome and the caller's rows afterwards *)
  Fixpoint idf_rows (idf : list A) (rows : list (item A)) : res unit * list (item A) :=
    match rows with
    | [] => (Ok tt, [])
    | Di d :: t =>
        match idf_row idf [] d with
        | (Ok d', _) => let '(r, t') := idf_rows idf t in (r, Di d' :: t')
        | (Err e, d') => (Err e, Di d' :: t)
        end
    | x :: t => (Err AttributeError, x :: t)
    end.
  Definition with_items (X : arr A) (l : list (item A)) : arr A :=
    match X with
    | Sp _ sz dt => Sp (map (fun x => match x with Di d => d | _ => [] end) l) sz dt
    | _ => Arr l
    end.

  (** text.py:421-443 [TfidfTransformerPure.transform]: the result, and the
      caller's matrix after the call.  [safe_log] and [expected_n_features] are
      undefined names. *)
  Definition tfidf_transform (t : tfidf) (X : arr A) : res (arr A) * arr A :=
    match (X1 <- check_array X HAllow ;; s <- shape X1 ;;
           match s with S1 _ => Err ValueError | S2 n m => Ok (X1, m) end) with
    | Err e => (Err e, X)
    | Ok (X1, m) =>
        if tf_sublinear t then (Err NameError, X)
        else
          let '(r, X2) :=
            if tf_use_idf t then
              if match m with Some m => (m =? tf_expected t)%Z | None => false end then
                match items X1 with
                | Ok l => let '(r, l') := idf_rows (tf_idf t) l in (r, with_items X1 l')
                | Err e => (Err e, X1)
                end
              else (Err NameError, X1)
            else (Ok tt, X1) in
          match r with
          | Err e => (Err e, X2)
          | Ok _ => (match tf_norm t with
                     | Some nm => normalize_pure X2 nm 1
                     | None => Ok X2
                     end, X2)
          end
    end.

  (** text.py:397-400 [TfidfVectorizerPure.transform] *)
  Definition tfidf_vec_transform (v : countvec) (t : tfidf) (raw : rawdocs) : res (arr A) :=
    X <- count_transform v raw ;; fst (tfidf_transform t X).

  (** text.py:454-472 *)
  Record hashvec := {
    hv_conf : textconf;
    hv_nfeat : Z;
    hv_binary : bool;
    hv_norm : option pystr;
    hv_alt : bool;
    hv_dtype : dtype;
  }.

  (** text.py:474-497 [HashingVectorizerPure.transform] *)
  Definition hashvec_transform (h : hashvec) (raw : rawdocs) : res (arr A) :=
    match raw with
    | RawStr _ => Err ValueError
    | RawDocs docs =>
        an <- build_analyzer (hv_conf h) ;;
        X <- hasher_transform_string (hv_nfeat h) (hv_dtype h) (hv_alt h) (map an docs) ;;
        X' <- (if hv_binary h then binarize X else Ok X) ;;
        match hv_norm h with
        | Some nm => normalize_pure X' nm 1
        | None => Ok X'
        end
    end.
End Text.
Arguments tfidf A : clear implicits.
