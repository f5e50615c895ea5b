(** Model of pure_sklearn/linear_model/*.py and svm/_classes.py. *)
From Coq Require Import String.
From Verif Require Import Model.Py Model.Arith Model.Utils Model.Base.

Section Linear.
  Context {A : arith} {L : Type}.

  (** linear_model/_base.py:14-28: attributes; None = attribute absent. *)
  Record linear := {
    l_coef : list (list A);
    l_classes : list L;
    l_intercept : option (list A);
    l_multi : option pystr;
    l_solver : option pystr;
    l_loss : option pystr;
  }.

  (** The fitted estimator's [intercept_]: a Python float or an array. *)
  Inductive icept := IFloat (x : A) | IArray (l : list A).

  (** linear_model/_base.py:14-28 [__init__] *)
  Definition linear_convert (coef : list (list A)) (classes : list L) (ic : option icept)
             (multi solver loss : option pystr) : linear :=
    {| l_coef := coef; l_classes := classes;
       l_intercept := match ic with
                      | None => None
                      | Some (IFloat x) => Some (rep x (List.length classes))
                      | Some (IArray l) => Some l
                      end;
       l_multi := multi; l_solver := solver; l_loss := loss |}.

  (** [decision_function] returns a flat list or a list of lists. *)
  Inductive dec := D1 (l : list A) | D2 (M : list (list A)).

  Definition getattr {T} (o : option T) : res T :=
    match o with Some x => Ok x | None => Err AttributeError end.

  (** linear_model/_base.py:44-47: the scores of one row *)
  Definition row_scores (c : linear) (x : item A) : res (list A) :=
    d <- dot x (l_coef c) ;; b <- getattr (l_intercept c) ;; Ok (zip_with add d b).

  (** linear_model/_base.py:30-48.  When shape(X)[1] is None (a sparse_list of
      unknown size) formatting the message with %d raises TypeError. *)
  Definition decision_function (c : linear) (X : arr A) : res dec :=
    X' <- check_array X HAllow ;;
    nf <- shape1 (ll (l_coef c)) ;;
    w <- shape1 X' ;;
    (match w, nf with
     | Some w, Some nf => guard (w =? nf)%Z ValueError
     | _, _ => Err TypeError
     end) ;;
    l <- items X' ;;
    scores <- mapM (row_scores c) l ;;
    ws <- shape1 (ll scores) ;;
    match ws with
    | Some 1%Z => r <- ravel (ll scores) ;; Ok (D1 r)
    | _ => Ok (D2 scores)
    end.

  (** linear_model/_base.py:50-57 *)
  Definition linear_predict (c : linear) (X : arr A) : res (list L) :=
    s <- decision_function c X ;;
    match s with
    | D1 l => mapM (fun x => lnth (l_classes c) (if gtb x zero then 1 else 0)) l
    | D2 M => mapM (fun a => i <- argmax a ;; lnth (l_classes c) i) M
    end.

  (** linear_model/_base.py:71-74: one row of normalised one-vs-rest scores *)
  Definition normalise (a : list A) : res (list A) :=
    mapM (fun b => if negb (eqb (psum a) zero) then div b (psum a) else Ok nanv) a.

  (** linear_model/_base.py:59-74 [_predict_proba_lr] *)
  Definition predict_proba_lr (c : linear) (X : arr A) : res (list (list A)) :=
    s <- decision_function c X ;;
    match s with
    | D1 l => mapM (fun x => a <- expit x ;; Ok [sub one a; a]) l
    | D2 M => P <- mapM (mapM expit) M ;; mapM normalise P
    end.

  (** linear_model/_logistic.py:24-27 *)
  Definition is_ovr (c : linear) : res bool :=
    mc <- getattr (l_multi c) ;;
    if str_eqb mc (lit "ovr") || str_eqb mc (lit "warn") then Ok true
    else if str_eqb mc (lit "auto") then
      if (List.length (l_classes c) <=? 2)%nat then Ok true
      else s <- getattr (l_solver c) ;; Ok (str_eqb s (lit "liblinear"))
    else Ok false.

  (** linear_model/_logistic.py:23-36 *)
  Definition logistic_predict_proba (c : linear) (X : arr A) : res (list (list A)) :=
    ovr <- is_ovr c ;;
    if ovr : bool then predict_proba_lr c X
    else
      s <- decision_function c X ;;
      match s with
      | D1 l => mapM (fun a => sfmax [opp a; a]) l
      | D2 M => mapM sfmax M
      end.
  (** linear_model/_logistic.py:38-44 *)
  Definition logistic_predict_log_proba (c : linear) (X : arr A) : res (list (list A)) :=
    p <- logistic_predict_proba c X ;; mapM (mapM safe_log) p.

  (** linear_model/_stochastic_gradient.py:23-27: [self.loss not in ("log")] is a
      substring test on the string "log". *)
  Definition check_proba (c : linear) : res unit :=
    s <- getattr (l_loss c) ;; guard (str_in s (lit "log")) AttributeError.
  (** linear_model/_stochastic_gradient.py:40-48 *)
  Definition sgd_predict_proba_inner (c : linear) (X : arr A) : res (list (list A)) :=
    s <- getattr (l_loss c) ;;
    if str_eqb s (lit "log") then predict_proba_lr c X else Err NotImplementedError.
  (** linear_model/_stochastic_gradient.py:29-38 (property access, then call) *)
  Definition sgd_predict_proba (c : linear) (X : arr A) : res (list (list A)) :=
    check_proba c ;; sgd_predict_proba_inner c X.
  (** linear_model/_stochastic_gradient.py:50-63 *)
  Definition sgd_predict_log_proba (c : linear) (X : arr A) : res (list (list A)) :=
    check_proba c ;; p <- sgd_predict_proba c X ;; mapM (mapM safe_log) p.
End Linear.
Arguments linear A L : clear implicits.
Arguments dec A : clear implicits.
Arguments icept A : clear implicits.
