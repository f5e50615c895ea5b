(** Model of pure_sklearn/pipeline.py, over arbitrary converted objects. *)
From Coq Require Import String.
From Verif Require Import Model.Py Model.Arith Model.Utils Model.Base Model.Hash Model.DictVec
  Model.Text.

Section Pipeline.
  Context {A : arith} {L V : Type}.

  (** What a method receives: numbers, raw documents, mappings, or a matrix of
      categories.  The ValueError object of utils.py:97 is [DNum ExnObj]. *)
  Inductive data :=
  | DNum (X : arr A)
  | DDocs (r : rawdocs)
  | DMaps (m : mappings A)
  | DCats (X : arr V).

  (** The list [predict] returns: labels, class indices (DummyClassifier) or
      numbers (regressors). *)
  Inductive preds := PLab (l : list L) | PIdx (l : list nat) | PNum (l : list A).

  (** The outcome of [transform(X)].  [t_out]: the exception, or the returned
      object, where None is X itself.  [t_after]: the contents of X when the
      call ends, as TfidfTransformer updates X in place (text.py:437-438).
      Every transformer returns X itself or an object sharing no row with X. *)
  Record tres := { t_out : res (option data); t_after : data }.
  Definition t_value (r : tres) : res data :=
    o <- t_out r ;; Ok (match o with None => t_after r | Some Y => Y end).

  (** A converted estimator, seen through its attributes; None = reading the
      attribute raises AttributeError.  A prediction returns its result and
      the contents of its argument afterwards. *)
  Record obj := {
    o_transform : option (data -> tres);
    o_predict : option (data -> res preds * data);
    o_proba : option (data -> res (list (list A)) * data);
    o_log_proba : option (data -> res (list (list A)) * data);
    o_classes : option (list L);
  }.

  (** [estimator.transform(X)] *)
  Definition call_transform (o : obj) (X : data) : tres :=
    match o_transform o with
    | None => {| t_out := Err AttributeError; t_after := X |}
    | Some f => f X
    end.

  (** pipeline.py:106-108, 139-141: [Xt = X; for ...: Xt = transform.transform(Xt)].
      [cur] is None while [Xt] is the caller's object, whose contents are [X]. *)
  Fixpoint run_steps (steps : list obj) (cur : option data) (X : data) : tres :=
    match steps with
    | [] => {| t_out := Ok cur; t_after := X |}
    | o :: rest =>
        match cur with
        | None =>
            let r := call_transform o X in
            match t_out r with
            | Err e => {| t_out := Err e; t_after := t_after r |}
            | Ok y => run_steps rest y (t_after r)
            end
        | Some Xt =>
            let r := call_transform o Xt in
            match t_out r with
            | Err e => {| t_out := Err e; t_after := X |}
            | Ok None => run_steps rest (Some (t_after r)) X
            | Ok (Some Y) => run_steps rest (Some Y) X
            end
        end
    end.

  Definition last_step (steps : list (pystr * obj)) : option obj :=
    option_map snd (nth_error steps (List.length steps - 1)).
  (** pipeline.py:83-97 [_iter(with_final=False)].  The filter on None and
      "passthrough" is dead code: convert_estimator returns neither. *)
  Definition init_steps (steps : list (pystr * obj)) : list obj :=
    map snd (firstn (List.length steps - 1) steps).

  (** pipeline.py:103-125: a prediction method, offered when the final
      estimator has it (pipeline.py:33-48).  Reading an attribute of a pipeline
      without steps raises IndexError; it is modelled as absent. *)
  Definition pipe_method {T} (get : obj -> option (data -> res T * data))
             (steps : list (pystr * obj)) : option (data -> res T * data) :=
    match last_step steps with
    | None => None
    | Some final =>
        match get final with
        | None => None
        | Some f =>
            Some (fun X =>
                    let r := run_steps (init_steps steps) None X in
                    match t_out r with
                    | Err e => (Err e, t_after r)
                    | Ok None => f (t_after r)
                    | Ok (Some Xt) => (fst (f Xt), t_after r)
                    end)
        end
    end.

  (** pipeline.py:67-151 [PipelinePure] *)
  Definition pipeline (steps : list (pystr * obj)) : obj :=
    {| o_transform :=
         match last_step steps with
         | None => None
         | Some final =>
             match o_transform final with
             | None => None
             | Some _ => Some (run_steps (map snd steps) None)
             end
         end;
       o_predict := pipe_method o_predict steps;
       o_proba := pipe_method o_proba steps;
       o_log_proba := pipe_method o_log_proba steps;
       o_classes := match last_step steps with None => None | Some f => o_classes f end |}.

  (** pipeline.py:191: [check_array(X, handle_sparse="allow")] on any data *)
  Definition check_data (X : data) : res data :=
    match X with
    | DNum X => X' <- check_array X HAllow ;; Ok (DNum X')
    | DCats X =>
        X' <- check_array X HAllow ;;
        Ok (match X' with ExnObj => DNum ExnObj | _ => DCats X' end)
    | DDocs (RawStr _) => Err TypeError
    | DDocs (RawDocs []) => Ok (DNum ExnObj)
    | DDocs (RawDocs _) => Ok X
    | DMaps (OneMap _) => Err TypeError
    | DMaps (Maps []) => Ok (DNum ExnObj)
    | DMaps (Maps _) => Ok X
    end.

  (** [len(X)], [shape(X)] on any data *)
  Definition data_len (X : data) : res nat :=
    match X with
    | DNum X => len X
    | DCats X => len X
    | DDocs (RawStr s) => Ok (List.length s)
    | DDocs (RawDocs l) => Ok (List.length l)
    | DMaps (OneMap m) => Ok (List.length m)
    | DMaps (Maps l) => Ok (List.length l)
    end.
  Definition data_shape1 (X : data) : res (option Z) :=
    match X with
    | DNum X => shape1 X
    | DCats X => shape1 X
    | DDocs _ => Err IndexError
    | DMaps (OneMap _) => Err KeyError
    | DMaps (Maps []) => Err IndexError
    | DMaps (Maps (m :: _)) => Ok (Some (Z.of_nat (List.length m)))
    end.

  (** The matrix a transformer returned.  Transformers return numbers (or X
      itself, when it is numeric), so the last case does not occur. *)
  Definition as_arr (X : data) : arr A := match X with DNum X => X | _ => NotList end.

  (** pipeline.py:59-64 [_transform_one]: the result (None = X itself) and X *)
  Definition transform_one (o : obj) (weight : option A) (X : data)
    : res (option (arr A)) * data :=
    let r := call_transform o X in
    (match weight with
     | None => y <- t_out r ;; Ok (option_map as_arr y)
     | Some w =>
         y <- t_value r ;;
         Y <- apply_2d (as_arr y) (fun x => Ok (mul x w)) ;;
         Ok (Some (ll Y))
     end, t_after r).

  (** pipeline.py:192-195: all members, in order, on the same object X.  The
      filter on None and "drop" (pipeline.py:183) is dead code. *)
  Fixpoint transform_all (members : list (obj * option A)) (X : data)
    : res (list (option (arr A))) * data :=
    match members with
    | [] => (Ok [], X)
    | (o, w) :: rest =>
        match transform_one o w X with
        | (Err e, X') => (Err e, X')
        | (Ok y, X') =>
            match transform_all rest X' with
            | (Err e, X'') => (Err e, X'')
            | (Ok ys, X'') => (Ok (y :: ys), X'')
            end
        end
    end.

  (** pipeline.py:178-184: [get_weight(name)] for every member *)
  Definition weighted (members : list (pystr * obj)) (weights : option (dict pystr A))
    : list (obj * option A) :=
    map (fun no => (snd no, match weights with
                            | None => None
                            | Some w => dlookup str_eqb (fst no) w
                            end)) members.

  (** [X_[index]] *)
  Definition row_at (X : arr A) (index : nat) : res (item A) :=
    l <- items X ;; lnth l index.

  (** [x + y] and [list(x)] on rows (pipeline.py:217); list + dict,
      dict + dict and list(number) raise TypeError *)
  Definition row_add (x y : item A) : res (item A) :=
    match x, y with
    | Ls a, Ls b => Ok (Ls (a ++ b))
    | Sc a, Sc b => Ok (Sc (add a b))
    | _, _ => Err TypeError
    end.

  (** [reduce(f, l)] *)
  Definition reduce {T} (f : T -> T -> res T) (l : list T) : res T :=
    match l with [] => Err TypeError | x :: t => foldM f t x end.

  (** pipeline.py:215-218 *)
  Definition dense_union (Xs : list (arr A)) (n : nat) : res (arr A) :=
    M <- mapM (fun index =>
                 rows <- mapM (fun X => row_at X index) Xs ;;
                 r <- reduce row_add rows ;;
                 iter_item r) (range n) ;;
    Ok (ll M).

  (** [x.size] of a sparse_list *)
  Definition size_of (X : arr A) : res (option Z) :=
    match X with Sp _ sz _ => Ok sz | _ => Err AttributeError end.
  (** adding None to an int (base.py:171) raises TypeError *)
  Definition known_size (s : option Z) : res Z :=
    match s with Some z => Ok z | None => Err TypeError end.

  (** pipeline.py:207-213: the shifted cells of one row, all members *)
  Definition union_row (Xs : list (arr A)) (starts : list Z) (index : nat) : res (dict Z A) :=
    blocks <- mapM (fun i =>
                      X <- lnth Xs i ;;
                      x <- row_at X index ;;
                      d <- item_items x ;;
                      s <- lnth starts i ;;
                      Ok (dict_of Z.eqb (map (fun kv => ((fst kv + s)%Z, snd kv)) d)))
                   (range (List.length Xs)) ;;
    cells <- reduce (fun a b => Ok (a ++ b)) blocks ;;
    Ok (dict_of Z.eqb cells).

  (** pipeline.py:199-214 *)
  Definition sparse_union (Xs : list (arr A)) (n : res nat) : res (arr A) :=
    Xs' <- mapM (fun X => if issparse X then Ok X else tosparse X) Xs ;;
    szs <- mapM size_of Xs' ;;
    sizes <- mapM known_size szs ;;
    n <- n ;;
    rows <- mapM (union_row Xs' (0%Z :: accumu sizes)) (range n) ;;
    sparse_list rows (Some (fold_left Z.add sizes 0%Z)) DFloat.

  (** pipeline.py:186-218 [FeatureUnionPure.transform] *)
  Definition union_transform (members : list (obj * option A)) (X : data) : tres :=
    match check_data X with
    | Err e => {| t_out := Err e; t_after := X |}
    | Ok X1 =>
        let '(r, X2) := transform_all members X1 in
        {| t_out :=
             ys <- r ;;
             Y <- (match ys with
                   | [] =>
                       w <- data_shape1 X2 ;;
                       w <- known_size w ;;
                       n <- data_len X2 ;;
                       Ok (ll (rep (rep zero (Z.to_nat w)) n))
                   | _ =>
                       let Xs := map (fun y => match y with None => as_arr X2 | Some Y => Y end) ys in
                       if existsb issparse Xs then sparse_union Xs (data_len X2)
                       else n <- data_len X2 ;; dense_union Xs n
                   end) ;;
             Ok (Some (DNum Y));
           t_after := match X1 with DNum ExnObj => X | _ => X2 end |}
    end.

  (** pipeline.py:154-218 [FeatureUnionPure] *)
  Definition feature_union (members : list (pystr * obj)) (weights : option (dict pystr A)) : obj :=
    {| o_transform := Some (union_transform (weighted members weights));
       o_predict := None; o_proba := None; o_log_proba := None; o_classes := None |}.
End Pipeline.
Arguments data A V : clear implicits.
Arguments preds A L : clear implicits.
Arguments tres A V : clear implicits.
Arguments obj A L V : clear implicits.
