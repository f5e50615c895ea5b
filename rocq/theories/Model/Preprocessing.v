(** Model of pure_sklearn/preprocessing/_data.py. *)
From Coq Require Import String.
From Verif Require Import Model.Py Model.Arith Model.Utils Model.Base.

Section Preprocessing.
  Context {A : arith}.

  (** _data.py:12-21 [_handle_zeros_in_scale] on a list *)
  Definition handle_zeros (scale : list A) : list A :=
    map (fun s => if eqb s zero then one else s) scale.

  (** _data.py:24-31 [_row_norms] *)
  Definition row_norms (X : arr A) : res (list A) :=
    XX <- matmult_same_dim X X ;;
    norms <- (if issparse X
              then l <- items XX ;; mapM (fun x => v <- item_values x ;; Ok (psum v)) l
              else apply_axis_2d XX (fun r => Ok (psum r)) 1) ;;
    mapM sqrtv norms.

  (** _data.py:55-60, 68-73: the norm of each row *)
  Definition norms_of (X : arr A) (norm : pystr) : res (list A) :=
    if str_eqb norm (lit "l1") then
      if issparse X
      then l <- items X ;; mapM (fun x => v <- item_values x ;; Ok (psum (map absv v))) l
      else Y <- apply_2d X (fun x => Ok (absv x)) ;;
           apply_axis_2d (ll Y) (fun r => Ok (psum r)) 1
    else if str_eqb norm (lit "l2") then row_norms X
    else
      if issparse X
      then l <- items X ;; mapM (fun x => v <- item_values x ;; pymax gtb (v ++ [zero])) l
      else apply_axis_2d X (pymax gtb) 1.

  (** _data.py:61-66, 74-78: every row divided by its norm *)
  Definition scale_rows (X : arr A) (norms : list A) : res (arr A) :=
    match X with
    | Sp rows sz dt =>
        rows' <- mapM (fun i => r <- lnth rows i ;;
                                dmapM (fun _ v => n <- lnth norms i ;; div v n) r)
                      (range (List.length rows)) ;;
        sparse_list rows' sz dt
    | _ =>
        l <- items X ;;
        M <- mapM (fun i => x <- lnth l i ;; r <- iter_item x ;;
                            mapM (fun a => n <- lnth norms i ;; div a n) r)
                  (range (List.length l)) ;;
        Ok (ll M)
    end.

  (** _data.py:34-86 [normalize_pure]: the result and the norms *)
  Definition normalize_full (X : arr A) (norm : pystr) (axis : Z) (return_norm : bool)
    : res (arr A * list A) :=
    guard (negb ((axis =? 0)%Z && issparse X)) ValueError ;;
    guard (mem str_eqb norm [lit "l1"; lit "l2"; lit "max"]) ValueError ;;
    guard ((axis =? 0) || (axis =? 1))%Z ValueError ;;
    X1 <- check_array X HAllow ;;
    X2 <- (if (axis =? 0)%Z then T <- transpose X1 ;; Ok (ll T) else Ok X1) ;;
    guard (negb (issparse X2 && return_norm
                 && (str_eqb norm (lit "l1") || str_eqb norm (lit "l2")))) NotImplementedError ;;
    ns <- norms_of X2 norm ;;
    X3 <- scale_rows X2 (handle_zeros ns) ;;
    X4 <- (if (axis =? 0)%Z then T <- transpose X3 ;; Ok (ll T) else Ok X3) ;;
    Ok (X4, handle_zeros ns).
  Definition normalize_pure (X : arr A) (norm : pystr) (axis : Z) : res (arr A) :=
    r <- normalize_full X norm axis false ;; Ok (fst r).

  (** _data.py:97-107 [NormalizerPure.transform] *)
  Definition normalizer_transform (norm : pystr) (X : arr A) : res (arr A) :=
    X' <- check_array X HAllow ;; normalize_pure X' norm 1.

  Definition not_none {T} (o : option T) : res T :=
    match o with Some x => Ok x | None => Err TypeError end.

  (** _data.py:118-130; None = attribute is None *)
  Record std_scaler := {
    ss_mean_on : bool; ss_std_on : bool;
    ss_scale : option (list A); ss_mean : option (list A) }.

  (** [{k: (v / scale[k]) for k, v in x.items()}] *)
  Definition div_cells (scale : list A) (d : dict Z A) : res (dict Z A) :=
    dmapM (fun k v => s <- lget scale k ;; div v s) d.
  (** [[x[i] / scale[i] for i in range(len(scale))]] *)
  Definition div_row (scale : list A) (x : item A) : res (list A) :=
    mapM (fun i => v <- item_get x (Z.of_nat i) ;; s <- lnth scale i ;; div v s)
         (range (List.length scale)).

  (** _data.py:132-152 [StandardScalerPure.transform] *)
  Definition std_transform (s : std_scaler) (X : arr A) : res (arr A) :=
    X1 <- check_array X HAllow ;;
    match X1 with
    | Sp rows sz dt =>
        guard (negb (ss_mean_on s)) ValueError ;;
        match ss_scale s with
        | None => Ok X1
        | Some sc => rows' <- mapM (div_cells sc) rows ;; sparse_list rows' sz dt
        end
    | _ =>
        X2 <- (if ss_mean_on s then
                 l <- items X1 ;;
                 M <- mapM (fun x =>
                              mean <- not_none (ss_mean s) ;;
                              mapM (fun i => v <- item_get x (Z.of_nat i) ;; m <- lnth mean i ;;
                                             Ok (sub v m)) (range (List.length mean))) l ;;
                 Ok (ll M)
               else Ok X1) ;;
        if ss_std_on s then
          l <- items X2 ;;
          M <- mapM (fun x => sc <- not_none (ss_scale s) ;; div_row sc x) l ;;
          Ok (ll M)
        else Ok X2
    end.

  (** _data.py:176-187 [MinMaxScalerPure.transform] *)
  Record minmax := { mm_scale : option (list A); mm_min : option (list A) }.
  Definition minmax_transform (s : minmax) (X : arr A) : res (arr A) :=
    if issparse X then Err TypeError
    else
      X1 <- check_array X HError ;;
      l <- items X1 ;;
      M <- mapM (fun x =>
                   sc <- not_none (mm_scale s) ;;
                   mapM (fun i => v <- item_get x (Z.of_nat i) ;; c <- lnth sc i ;;
                                  mn <- not_none (mm_min s) ;; m <- lnth mn i ;;
                                  Ok (add (mul v c) m))
                        (range (List.length sc))) l ;;
      Ok (ll M).

  (** _data.py:211-219 [MaxAbsScalerPure.transform]; [scale] = [scale_] *)
  Definition maxabs_transform (scale : option (list A)) (X : arr A) : res (arr A) :=
    X1 <- check_array X HAllow ;;
    match X1 with
    | Sp rows sz dt =>
        rows' <- mapM (dmapM (fun k v => sc <- not_none scale ;; s <- lget sc k ;; div v s)) rows ;;
        sparse_list rows' sz dt
    | _ =>
        l <- items X1 ;;
        M <- mapM (fun x => sc <- not_none scale ;; div_row sc x) l ;;
        Ok (ll M)
    end.
End Preprocessing.
Arguments std_scaler A : clear implicits.
Arguments minmax A : clear implicits.
