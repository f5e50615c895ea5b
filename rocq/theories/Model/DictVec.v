(** Model of pure_sklearn/feature_extraction/_dict_vectorizer.py. *)
From Verif Require Import Model.Py Model.Arith Model.Utils Model.Base Model.Hash.

Section DictVec.
  Context {A : arith}.

  (** _dict_vectorizer.py:18-25 *)
  Record dictvec := {
    dv_vocab : dict pystr Z;
    dv_sparse : bool;
    dv_dtype : dtype;
    dv_sep : pystr;
  }.

  (** A mapping with string keys, or a list of them (_dict_vectorizer.py:31). *)
  Inductive mappings := OneMap (x : dict pystr (fval A)) | Maps (l : list (dict pystr (fval A))).

  (** _dict_vectorizer.py:35-41 *)
  Definition dv_row (d : dictvec) (x : dict pystr (fval A)) : res (dict Z A) :=
    foldM (fun row fv =>
             let '(f, v) := match snd fv with
                            | FStr s => (fst fv ++ dv_sep d ++ s, one)
                            | FNum v => (fst fv, v)
                            end in
             match dlookup str_eqb f (dv_vocab d) with
             | None => Ok row
             | Some j => v' <- conv (dv_dtype d) v ;; Ok (dset Z.eqb j v' row)
             end) x [].

  (** _dict_vectorizer.py:27-46 [transform] *)
  Definition dv_transform (d : dictvec) (X : mappings) : res (arr A) :=
    let xs := match X with OneMap x => [x] | Maps l => l end in
    data <- mapM (dv_row d) xs ;;
    m <- sparse_list data (Some (Z.of_nat (length (dv_vocab d)))) (dv_dtype d) ;;
    if dv_sparse d then Ok m else D <- todense m ;; Ok (ll D).
End DictVec.
Arguments mappings A : clear implicits.
