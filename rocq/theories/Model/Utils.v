(** Model of pure_sklearn/utils.py: array checks and [sparse_list]. *)
From Verif Require Import Model.Py Model.Arith.

(** An element of a 2-D container: a number, a list row or a dict row.
    Simplification: dict rows have int keys (column indices). *)
Inductive item (T : Type) := Sc (t : T) | Ls (l : list T) | Di (d : dict Z T).
Arguments Sc {T} t.
Arguments Ls {T} l.
Arguments Di {T} d.

(** What the library receives as [X].  [Arr] is a plain list, [Sp] a
    [sparse_list] (rows, size, dtype), [ExnObj] the ValueError *object* that
    [check_array] returns for an empty list (utils.py:96-97), [NotList] an
    object that is not a list and supports neither len() nor iteration nor
    indexing (a number, None, ...).  Other sequence types are not modelled. *)
Inductive arr (T : Type) :=
| Arr (l : list (item T))
| Sp (rows : list (dict Z T)) (size : option Z) (dt : dtype)
| ExnObj
| NotList.
Arguments Arr {T} l.
Arguments Sp {T} rows size dt.
Arguments ExnObj {T}.
Arguments NotList {T}.

(** A dense matrix given as a list of lists. *)
Definition ll {T} (M : list (list T)) : arr T := Arr (map Ls M).

(** The 'handle_sparse' argument: "allow", "error", or any other string. *)
Inductive hs := HAllow | HError | HOther.

(** Result of [shape]: a 1-tuple or a 2-tuple.  The second component is None
    only for a sparse_list built without size. *)
Inductive shp := S1 (n : Z) | S2 (n : Z) (m : option Z).

Section Containers.
  Context {A : Type}.

  (** utils.py:134-136 [issparse] *)
  Definition issparse (X : arr A) : bool := match X with Sp _ _ _ => true | _ => false end.

  (** utils.py:76-98 [check_array]; lines 96-97 *return* the exception. *)
  Definition check_array (X : arr A) (h : hs) : res (arr A) :=
    match X with
    | Sp _ _ _ =>
        match h with HAllow => Ok X | HError => Err ValueError | HOther => Err ValueError end
    | Arr [] => Ok ExnObj
    | Arr _ => Ok X
    | ExnObj | NotList => Err TypeError
    end.

  (** [for x in X]: the items iterated over; an exception object is not iterable. *)
  Definition items (X : arr A) : res (list (item A)) :=
    match X with
    | Arr l => Ok l
    | Sp rows _ _ => Ok (map Di rows)
    | ExnObj | NotList => Err TypeError
    end.

  (** [len(X)] *)
  Definition len (X : arr A) : res nat := l <- items X ;; Ok (length l).

  (** utils.py:116-121 [ndim] (looks at [X[0]] only). *)
  Definition ndim (X : arr A) : res nat :=
    l <- items X ;;
    match l with
    | [] => Err IndexError
    | Sc _ :: _ => Ok 1
    | _ :: _ => Ok 2
    end.

  (** utils.py:101-113 [shape] *)
  Definition shape (X : arr A) : res shp :=
    l <- items X ;;
    match l with
    | [] => Err IndexError
    | Sc _ :: _ => Ok (S1 (Z.of_nat (length l)))
    | x :: _ =>
        match X with
        | Sp _ sz _ => Ok (S2 (Z.of_nat (length l)) sz)
        | _ => Ok (S2 (Z.of_nat (length l))
                      (Some (Z.of_nat (match x with Ls r => length r | Di d => length d | Sc _ => 0 end))))
        end
    end.

  (** [shape(X)[1]]: IndexError on a 1-tuple. *)
  Definition shape1 (X : arr A) : res (option Z) :=
    s <- shape X ;; match s with S1 _ => Err IndexError | S2 _ m => Ok m end.
  (** [shape(X)[0]] *)
  Definition shape0 (X : arr A) : res Z :=
    s <- shape X ;; match s with S1 n => Ok n | S2 n _ => Ok n end.

  (** [x[i]] for a row [x]. *)
  Definition item_get (x : item A) (i : Z) : res A :=
    match x with
    | Sc _ => Err TypeError
    | Ls l => lget l i
    | Di d => dget Z.eqb d i
    end.
  (** [len(x)] for a row [x]. *)
  Definition item_len (x : item A) : res nat :=
    match x with Sc _ => Err TypeError | Ls l => Ok (length l) | Di d => Ok (length d) end.
  (** [x.values()] *)
  Definition item_values (x : item A) : res (list A) :=
    match x with Di d => Ok (dvalues d) | _ => Err AttributeError end.
  (** [x.items()] *)
  Definition item_items (x : item A) : res (list (Z * A)) :=
    match x with Di d => Ok d | _ => Err AttributeError end.

  Definition all_dicts (l : list (item A)) : res (list (dict Z A)) :=
    mapM (fun x => match x with Di d => Ok d | _ => Err TypeError end) l.

  (** utils.py:163-169 [sparse_list(rows, size, dtype)] when [A[0]] is a dict.
      [A[0]] raises IndexError on an empty list. *)
  Definition sparse_list (rows : list (dict Z A)) (size : option Z) (dt : dtype) : res (arr A) :=
    match rows with [] => Err IndexError | _ => Ok (Sp rows size dt) end.
End Containers.

Section Utils.
  Context {A : arith}.

  (** [for v in x] / [map(f, x)]: a dict yields its keys. *)
  Definition iter_item (x : item A) : res (list A) :=
    match x with
    | Sc _ => Err TypeError
    | Ls l => Ok l
    | Di d => Ok (map (fun kv => ofZ (fst kv)) d)
    end.
  (** utils.py:173-176: one dense row turned into a dict, zeros skipped.
      [row[i]] raises IndexError on a row shorter than [size]. *)
  Definition sparse_row (size : Z) (row : item A) : res (dict Z A) :=
    cells <- mapM (fun i => v <- item_get row i ;; Ok (i, v)) (zrange 0 size) ;;
    Ok (dict_of Z.eqb (filter (fun iv => negb (eqb (snd iv) zero)) cells)).

  (** utils.py:124-126 [tosparse] = [sparse_list(A)] (utils.py:163-176).
      Simplification: a list starting with a dict must contain only dicts
      (TypeError otherwise); the cell type is float, hence dtype float. *)
  Definition tosparse (X : arr A) : res (arr A) :=
    l <- items X ;;
    match l with
    | [] => Err IndexError
    | Di _ :: _ => rows <- all_dicts l ;; Ok (Sp rows None DFloat)
    | x0 :: _ =>
        X' <- check_array X HError ;;
        sz <- shape1 X' ;;
        item_get x0 0 ;;
        match sz with
        | None => Err TypeError
        | Some n => rows <- mapM (sparse_row n) l ;; Ok (Sp rows sz DFloat)
        end
    end.

  (** utils.py:129-131, 178-184 [todense]; [range(None)] raises TypeError. *)
  Definition todense (X : arr A) : res (list (list A)) :=
    match X with
    | Sp rows sz dt =>
        mapM (fun row => match sz with
                         | None => Err TypeError
                         | Some n => Ok (map (fun i => dget_default Z.eqb row i (dzero dt)) (zrange 0 n))
                         end) rows
    | _ => Err AttributeError
    end.
End Utils.
