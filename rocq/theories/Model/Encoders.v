(** Model of pure_sklearn/preprocessing/_encoders.py and _label.py. *)
From Coq Require Import String.
From Verif Require Import Model.Py Model.Arith Model.Utils Model.Base.

Section Encoders.
  Context {A : arith}.
  (** Category values: hashable Python objects; [veq] is the equality used by
      sets and dicts. *)
  Context {V : Type} (veq : V -> V -> bool).

  (** _encoders.py:23-33: attributes; None = attribute absent *)
  Record encoder := {
    en_dtype : dtype;
    en_cats : list (list V);
    en_sparse : option bool;
    en_unknown : option pystr;
  }.

  (** _encoders.py:23-33 [__init__] ([drop]: whether a non-None drop is set) *)
  Definition encoder_convert (dt : dtype) (cats : list (list V)) (sparse : option bool)
             (drop : bool) (unknown : option pystr) : res encoder :=
    guard (negb drop) ValueError ;;
    Ok {| en_dtype := dt; en_cats := cats; en_sparse := sparse; en_unknown := unknown |}.

  (** _encoders.py:35-46 [_check_X], [_get_feature]; unpacking a 1-tuple into
      two names raises ValueError. *)
  Definition check_X (X : arr V) : res (list (list V) * nat * nat) :=
    X1 <- check_array X HError ;;
    s <- shape X1 ;;
    match s with
    | S1 _ => Err ValueError
    | S2 n m =>
        let m := match m with Some m => Z.to_nat m | None => 0 end in
        l <- items X1 ;;
        cols <- mapM (fun i => mapM (fun x => item_get x (Z.of_nat i)) l) (range m) ;;
        Ok (cols, Z.to_nat n, m)
    end.

  (** _label.py:30-41 [_encode_check_unknown] with return_mask=True *)
  Definition check_unknown (values uniques : list V) : list bool :=
    let diff := filter (fun v => negb (mem veq v uniques)) values in
    match diff with
    | [] => rep true (List.length values)
    | _ => map (fun v => mem veq v uniques) values
    end.

  (** _label.py:6-27 [_encode] with encode=True: {val: i} then [table[v]];
      a KeyError becomes ValueError *)
  Definition encode (values uniques : list V) : res (list nat) :=
    let table := dict_of veq (combine uniques (range (List.length uniques))) in
    mapM (fun v => match dlookup veq v table with Some i => Ok i | None => Err ValueError end) values.

  (** [[[new[j] if idx == i else old[j][idx] for idx in range(m)] for j in range(n)]] *)
  Definition set_column {T} (old : list (list T)) (new : list T) (i n m : nat) : res (list (list T)) :=
    mapM (fun j => mapM (fun idx => if (idx =? i)%nat then lnth new j
                                    else r <- lnth old j ;; lnth r idx) (range m)) (range n).

  (** _encoders.py:48-98 [_transform]: integer codes and validity mask *)
  Definition enc_transform (e : encoder) (X : arr V) (unknown : pystr)
    : res (list (list nat) * list (list bool)) :=
    '(cols, n, m) <- check_X X ;;
    guard (m =? List.length (en_cats e))%nat ValueError ;;
    foldM (fun st i =>
             let '(xint, mask) := st in
             xi <- lnth cols i ;;
             cats <- lnth (en_cats e) i ;;
             let valid := check_unknown xi cats in
             '(xi', mask') <-
               (if forallb (fun b => b) valid then Ok (xi, mask)
                else if str_eqb unknown (lit "error") then Err ValueError
                else
                  mk <- set_column mask valid i n m ;;
                  x' <- mapM (fun idx => b <- lnth valid idx ;;
                                         if b : bool then lnth xi idx else lnth cats 0)
                             (range (List.length xi)) ;;
                  Ok (x', mk)) ;;
             enc <- encode xi' cats ;;
             xint' <- set_column xint enc i n m ;;
             Ok (xint', mask'))
          (range m) (rep (rep 0 m) n, rep (rep true m) n).

  (** _encoders.py:109-112 [OrdinalEncoderPure.transform] *)
  Definition ordinal_transform (e : encoder) (X : arr V) : res (list (list A)) :=
    '(xint, _) <- enc_transform e X (lit "error") ;;
    mapM (mapM (fun c => conv (en_dtype e) (ofnat c))) xint.

  (** _encoders.py:123-144 [OneHotEncoderPure.transform]; the column offset is
      [n_values[i]], as in the source *)
  Definition onehot_transform (e : encoder) (X : arr V) : res (arr A) :=
    unknown <- (match en_unknown e with Some u => Ok u | None => Err AttributeError end) ;;
    '(xint, mask) <- enc_transform e X unknown ;;
    x0 <- lnth xint 0 ;;
    let n := List.length xint in
    let m := List.length x0 in
    let n_values := 0%Z :: map (fun c => Z.of_nat (List.length c)) (en_cats e) in
    size <- lget (accumu n_values) (-1) ;;
    data <- mapM (fun j =>
                    cells <- mapM (fun i =>
                                     mk <- lnth mask j ;; b <- lnth mk i ;;
                                     if b : bool then
                                       off <- lnth n_values i ;;
                                       row <- lnth xint j ;; c <- lnth row i ;;
                                       v <- conv (en_dtype e) one ;;
                                       Ok [((off + Z.of_nat c)%Z, v)]
                                     else Ok []) (range m) ;;
                    Ok (dict_of Z.eqb (concat cells))) (range n) ;;
    out <- sparse_list data (Some size) (en_dtype e) ;;
    sp <- (match en_sparse e with Some b => Ok b | None => Err AttributeError end) ;;
    if sp : bool then Ok out else D <- todense out ;; Ok (ll D).
End Encoders.
Arguments encoder V : clear implicits.
