(** Model of pure_sklearn/naive_bayes.py. *)
From Verif Require Import Model.Py Model.Arith Model.Utils Model.Base.

Section NB.
  Context {A : arith} {L : Type}.

  (** naive_bayes.py:57-63 *)
  Record gaussian := {
    g_prior : list A; g_classes : list L;
    g_sigma : list (list A); g_theta : list (list A) }.
  (** naive_bayes.py:96-101, 124-129 *)
  Record discrete := {
    d_log_prior : list A; d_classes : list L; d_log_prob : list (list A) }.

  Inductive nb := Gaussian (g : gaussian) | Multinomial (d : discrete) | Complement (d : discrete).

  Definition nb_classes (m : nb) : list L :=
    match m with Gaussian g => g_classes g | Multinomial d | Complement d => d_classes d end.

  (** math.pi = 0x1.921fb54442d18p+1 *)
  Definition pi : A := ofZE 7074237752028440 (-51).
  Definition nb_half : A := ofZE 1 (-1).
  Definition nb_mhalf : A := ofZE (-1) (-1).
  Definition nb_two : A := ofZ 2.

  (** naive_bayes.py:70-72 *)
  Definition n_ij (sigma : list A) : res A :=
    l <- mapM (fun x => safe_log (mul (mul nb_two pi) x)) sigma ;;
    Ok (mul nb_mhalf (psum l)).

  (** naive_bayes.py:74-79: [((a[b] - theta[i][b]) ** 2) / sigma[i][b]] for all b *)
  Definition sq_terms (theta sigma : list (list A)) (i : nat) (a : item A) : res (list A) :=
    n <- item_len a ;;
    mapM (fun b =>
            v <- item_get a (Z.of_nat b) ;;
            th <- lnth theta i ;; t <- lnth th b ;;
            q <- sqr (sub v t) ;;
            sg <- lnth sigma i ;; s <- lnth sg b ;;
            div q s) (range n).

  (** naive_bayes.py:65-85; the result is transposed from class-major order *)
  Definition gaussian_jll (g : gaussian) (X : list (item A)) : res (list (list A)) :=
    J <- mapM (fun i =>
                 p <- lnth (g_prior g) i ;;
                 jointi <- safe_log p ;;
                 sg <- lnth (g_sigma g) i ;;
                 n <- n_ij sg ;;
                 jll <- mapM (sq_terms (g_theta g) (g_sigma g) i) X ;;
                 let jll2 := map (fun a => mul nb_half (psum a)) jll in
                 Ok (map (fun a => add (sub n a) jointi) jll2))
              (range (length (g_classes g))) ;;
    transpose (ll J).

  (** naive_bayes.py:107-113 *)
  Definition multinomial_row (d : discrete) (x : item A) : res (list A) :=
    p <- dot x (d_log_prob d) ;;
    mapM (fun i => a <- lnth p i ;; b <- lnth (d_log_prior d) i ;; Ok (add a b))
         (range (length (d_classes d))).

  (** naive_bayes.py:131-136 *)
  Definition complement_jll (d : discrete) (X : list (item A)) : res (list (list A)) :=
    jll <- mapM (fun x => dot x (d_log_prob d)) X ;;
    if (length (d_classes d) =? 1)%nat then
      mapM (fun x => a <- lnth x 0 ;; b <- lnth (d_log_prior d) 0 ;; Ok [add a b]) jll
    else Ok jll.

  (** [_joint_log_likelihood]: naive_bayes.py:65, 103-105, 131 *)
  Definition jll (m : nb) (X : arr A) : res (list (list A)) :=
    match m with
    | Gaussian g =>
        (* [for a in X] is only evaluated inside the loop over classes *)
        match g_classes g with
        | [] => gaussian_jll g []
        | _ => match items X with
               | Ok l => gaussian_jll g l
               | Err e =>
                   p <- lnth (g_prior g) 0 ;; safe_log p ;;
                   sg <- lnth (g_sigma g) 0 ;; n_ij sg ;; Err e
               end
        end
    | Multinomial d => l <- items X ;; mapM (multinomial_row d) l
    | Complement d => l <- items X ;; complement_jll d l
    end.

  (** naive_bayes.py:21-28 *)
  Definition nb_predict (m : nb) (X : arr A) : res (list L) :=
    X' <- check_array X HError ;;
    J <- jll m X' ;;
    mapM (fun a => i <- argmax a ;; lnth (nb_classes m) i) J.

  (** naive_bayes.py:36: [safe_log(sum(map(safe_exp, a)))] *)
  Definition logsumexp (a : list A) : res A :=
    es <- mapM safe_exp a ;; safe_log (psum es).

  (** naive_bayes.py:30-40 *)
  Definition nb_predict_log_proba (m : nb) (X : arr A) : res (list (list A)) :=
    X' <- check_array X HError ;;
    J <- jll m X' ;;
    lp <- mapM logsumexp J ;;
    Ok (zip_with (fun a s => map (fun v => sub v s) a) J lp).

  (** naive_bayes.py:42-46 *)
  Definition nb_predict_proba (m : nb) (X : arr A) : res (list (list A)) :=
    p <- nb_predict_log_proba m X ;; mapM (mapM safe_exp) p.
End NB.
Arguments gaussian A L : clear implicits.
Arguments discrete A L : clear implicits.
Arguments nb A L : clear implicits.
