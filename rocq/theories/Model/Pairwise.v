(** Model of pure_sklearn/metrics/pairwise.py. *)
From Coq Require Import String.
From Verif Require Import Model.Py Model.Arith Model.Utils Model.Base Model.Preprocessing.

Section Pairwise.
  Context {A : arith}.

  (** The argument [Y]: absent, the same object as X, or another matrix. *)
  Inductive yarg := YNone | YSame | YOther (Y : arr A).
  Definition y_of (X : arr A) (Y : yarg) : arr A :=
    match Y with YOther Y => Y | _ => X end.

  Definition oz_eqb (a b : option Z) : bool :=
    match a, b with
    | Some a, Some b => (a =? b)%Z
    | None, None => true
    | _, _ => false
    end.

  (** pairwise.py:31-40 [_check_pairwise_arrays] *)
  Definition check_pairwise (X : arr A) (Y : yarg) : res (arr A * arr A) :=
    let Y' := y_of X Y in
    dx <- ndim X ;;
    (if (dx =? 2)%nat then dy <- ndim Y' ;; guard (dy =? 2)%nat ValueError else Err ValueError) ;;
    wx <- shape1 X ;; wy <- shape1 Y' ;;
    guard (oz_eqb wx wy) ValueError ;;
    guard (negb (issparse Y')) ValueError ;;
    Ok (X, Y').

  (** The rows of a dense matrix.  Simplification: a plain list of dicts as Y
      is not modelled (TypeError). *)
  Definition dense_rows (X : arr A) : res (list (list A)) :=
    l <- items X ;; mapM (fun x => match x with Ls r => Ok r | _ => Err TypeError end) l.

  (** pairwise.py:43-52 *)
  Definition cosine_similarity (X : arr A) (Y : yarg) : res (list (list A)) :=
    '(X1, Y1) <- check_pairwise X Y ;;
    XN <- normalize_pure X1 (lit "l2") 1 ;;
    YN <- (match Y with
           | YOther _ => normalize_pure Y1 (lit "l2") 1
           | _ => Ok XN
           end) ;;
    B <- dense_rows YN ;;
    dot_2d XN B.

  (** pairwise.py:14-20 *)
  Definition pw_clip (a amin amax : A) : A :=
    if ltb a amin then amin else if gtb a amax then amax else a.

  (** pairwise.py:23-28 *)
  Definition set_diag (S : list (list A)) : list (list A) :=
    map (fun ir => map (fun jv => if (fst ir =? fst jv)%nat then zero else snd jv)
                       (combine (range (List.length (snd ir))) (snd ir)))
        (combine (range (List.length S)) S).

  (** pairwise.py:55-62 *)
  Definition cosine_distances (X : arr A) (Y : yarg) : res (list (list A)) :=
    S <- cosine_similarity X Y ;;
    S' <- apply_2d (ll S) (fun x => Ok (pw_clip (add (opp x) one) zero (ofZ 2))) ;;
    match Y with
    | YOther _ => Ok S'
    | _ => Ok (set_diag S')
    end.

  (** pairwise.py:65-68 *)
  Definition linear_kernel (X : arr A) (Y : yarg) : res (list (list A)) :=
    '(X1, Y1) <- check_pairwise X Y ;;
    B <- dense_rows Y1 ;;
    dot_2d X1 B.
End Pairwise.
Arguments yarg A : clear implicits.
