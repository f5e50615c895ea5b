(** Model of pure_sklearn/base.py: matrix helpers. *)
From Verif Require Import Model.Py Model.Arith Model.Utils.

Section Base.
  Context {A : arith}.

  (** base.py:11-24 [dot] (A 1-D: list or dict row, B 2-D list of lists) *)
  Definition dot (x : item A) (B : list (list A)) : res (list A) :=
    mapM (fun Bi =>
            match x with
            | Di d => ts <- mapM (fun kv => b <- lget Bi (fst kv) ;; Ok (mul (snd kv) b)) d ;;
                      Ok (psum ts)
            | Ls a => Ok (psum (zip_with mul a Bi))
            | Sc _ => Err TypeError
            end) B.

  (** base.py:27-33 [dot_2d] *)
  Definition dot_2d (X : arr A) (B : list (list A)) : res (list (list A)) :=
    l <- items X ;; mapM (fun a => dot a B) l.

  Definition shp_eqb (s t : shp) : bool :=
    match s, t with
    | S1 n, S1 n' => (n =? n')%Z
    | S2 n m, S2 n' m' =>
        (n =? n')%Z && match m, m' with
                       | Some a, Some b => (a =? b)%Z
                       | None, None => true
                       | _, _ => false
                       end
    | _, _ => false
    end.

  (** base.py:53-57: products of the entries of two dict rows with equal keys *)
  Definition mult_rows (a b : dict Z A) : dict Z A :=
    dict_of Z.eqb
      (concat (map (fun kva =>
                      map (fun kvb => (fst kvb, mul (snd kva) (snd kvb)))
                          (filter (fun kvb => (fst kvb =? fst kva)%Z) b)) a)).

  (** base.py:36-59 [matmult_same_dim] *)
  Definition matmult_same_dim (X Y : arr A) : res (arr A) :=
    sX <- shape X ;;
    sY <- shape Y ;;
    guard (shp_eqb sX sY) ValueError ;;
    guard (Bool.eqb (issparse X) (issparse Y)) ValueError ;;
    match X, Y with
    | Sp rX szX dtX, Sp rY _ _ =>
        sparse_list (zip_with mult_rows rX rY) szX dtX
    | _, _ =>
        lX <- items X ;; lY <- items Y ;;
        match sX with
        | S1 _ => Err IndexError
        | S2 n m =>
            rows <- mapM (fun i =>
                            a <- lnth lX i ;; b <- lnth lY i ;;
                            mapM (fun j => va <- item_get a j ;; vb <- item_get b j ;;
                                           Ok (mul va vb))
                                 (zrange 0 (match m with Some m => m | None => 0%Z end)))
                         (range (Z.to_nat n)) ;;
            Ok (ll rows)
        end
    end.

  (** [[*zip( *rows)]] as lists: columns, truncated to the shortest row *)
  Fixpoint zipstar {T} (M : list (list T)) : list (list T) :=
    match M with
    | [] => []
    | [r] => map (fun x => [x]) r
    | r :: rest => zip_with cons r (zipstar rest)
    end.

  (** base.py:62-66 [transpose] *)
  Definition transpose (X : arr A) : res (list (list A)) :=
    if issparse X then Err ValueError
    else l <- items X ;; M <- mapM iter_item l ;; Ok (zipstar M).

  (** base.py:86-93 [safe_log] *)
  Definition safe_log (x : A) : res A :=
    if eqb x zero then Ok ninf
    else if ltb x zero then Ok nanv
    else logv x.

  (** base.py:96-101 [safe_exp]: OverflowError becomes infinity *)
  Definition safe_exp (x : A) : res A :=
    match expv x with Err OverflowError => Ok pinf | r => r end.

  (** base.py:69-71 [expit] *)
  Definition expit (x : A) : res A :=
    e <- safe_exp (opp x) ;; div one (add one e).

  (** base.py:74-83 [sfmax], list case *)
  Definition sfmax (l : list A) : res (list A) :=
    es <- mapM safe_exp l ;; mapM (fun e => div e (psum es)) es.

  (** base.py:76-79 [sfmax], dict case *)
  Definition sfmax_dict (d : dict Z A) : res (dict Z A) :=
    es <- dmapM (fun _ v => safe_exp v) d ;;
    dmapM (fun _ v => div v (psum (dvalues es))) es.

  (** base.py:104-110 [operate_2d] *)
  Definition operate_2d (X Y : arr A) (f : A -> A -> A) : res (list (list A)) :=
    if issparse X || issparse Y then Err ValueError
    else
      sX <- shape X ;; sY <- shape Y ;;
      guard (shp_eqb sX sY) ValueError ;;
      lX <- items X ;; lY <- items Y ;;
      mapM (fun i => x <- lnth lX i ;; y <- lnth lY i ;;
                     a <- iter_item x ;; b <- iter_item y ;; Ok (zip_with f a b))
           (range (length lX)).

  (** base.py:113-117 [apply_2d] *)
  Definition apply_2d {B} (X : arr A) (f : A -> res B) : res (list (list B)) :=
    if issparse X then Err ValueError
    else l <- items X ;; mapM (fun a => r <- iter_item a ;; mapM f r) l.

  (** base.py:120-125 [apply_2d_sparse] *)
  Definition apply_2d_sparse (X : arr A) (f : A -> res A) : res (arr A) :=
    match X with
    | Sp rows sz dt => rows' <- mapM (dmapM (fun _ v => f v)) rows ;; sparse_list rows' sz dt
    | _ => Err ValueError
    end.

  (** base.py:128-143 [apply_axis_2d] *)
  Definition apply_axis_2d {B} (X : arr A) (f : list A -> res B) (axis : Z) : res (list B) :=
    if issparse X && (axis =? 0)%Z then Err ValueError
    else if (axis =? 1)%Z then
      l <- items X ;;
      mapM (fun a => r <- (if issparse X then item_values a else iter_item a) ;; f r) l
    else if (axis =? 0)%Z then
      M <- transpose X ;; mapM f M
    else Err ValueError.

  (** base.py:146-150 [ravel] *)
  Definition ravel (X : arr A) : res (list A) :=
    if issparse X then Err ValueError
    else M <- transpose X ;; lnth M 0.

  (** base.py:153-159 [slice_column] with an int index *)
  Definition slice_column (X : arr A) (idx : Z) : res (list A) :=
    l <- items X ;;
    match X with
    | Sp rows _ dt => Ok (map (fun r => dget_default Z.eqb r idx (dzero dt)) rows)
    | _ => mapM (fun a => item_get a idx) l
    end.

  (** base.py:160-165 [slice_column] with a list of indices; the dense result is
      a list of lists, the sparse one a sparse_list of the *unchanged* size with
      the *unchanged* keys. *)
  Definition slice_columns (X : arr A) (idx : list Z) : res (arr A) :=
    l <- items X ;;
    match X with
    | Sp rows sz dt =>
        sparse_list (map (filter (fun kv => mem Z.eqb (fst kv) idx)) rows) sz dt
    | _ => M <- mapM (fun a => mapM (item_get a) idx) l ;; Ok (ll M)
    end.

  (** base.py:168-173 [accumu] (used on ints) *)
  Fixpoint accumu_from (total : Z) (l : list Z) : list Z :=
    match l with
    | [] => []
    | x :: t => (total + x)%Z :: accumu_from (total + x)%Z t
    end.
  Definition accumu (l : list Z) : list Z := accumu_from 0 l.
End Base.
