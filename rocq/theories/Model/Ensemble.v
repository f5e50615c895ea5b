(** Model of pure_sklearn/ensemble/_bagging.py, _forest.py, _gb.py, _gb_losses.py. *)
From Verif Require Import Model.Py Model.Arith Model.Utils Model.Base Model.Tree.

Section Ensemble.
  Context {A : arith} {L : Type}.

  (** A [predict_proba] method. *)
  Definition proba_fun := arr A -> res (list (list A)).

  (** _bagging.py:12-16 [_feat_slice] *)
  Definition feat_slice (X : arr A) (feats : option (list Z)) : res (arr A) :=
    match feats with
    | None => Ok X
    | Some fs =>
        l <- items X ;; M <- mapM (fun a => mapM (item_get a) fs) l ;; Ok (ll M)
    end.

  (** _bagging.py:22-33: attributes.  [b_feats] is None when the estimator has
      no [estimators_features_] (forests); members are given by their
      [predict_proba]. *)
  Record bagging := {
    b_members : list proba_fun;
    b_feats : option (list (list Z));
    b_classes : list L;
  }.

  (** _bagging.py:53-55 [_get_feats] *)
  Definition get_feats (b : bagging) (idx : nat) : res (option (list Z)) :=
    match b_feats b with
    | None => Ok None
    | Some fs => f <- lnth fs idx ;; Ok (Some f)
    end.

  Definition member_proba (b : bagging) (X : arr A) (idx : nat) : res (list (list A)) :=
    p <- lnth (b_members b) idx ;;
    f <- get_feats b idx ;;
    X' <- feat_slice X f ;;
    p X'.

  (** _bagging.py:35-43 *)
  Definition bagging_predict_proba (b : bagging) (X : arr A) : res (list (list A)) :=
    p0 <- member_proba b X 0 ;;
    p <- foldM (fun acc idx => pi <- member_proba b X idx ;; operate_2d (ll acc) (ll pi) add)
               (seq 1 (length (b_members b) - 1)) p0 ;;
    apply_2d (ll p) (fun x => div x (ofnat (length (b_members b)))).

  (** _bagging.py:45-46 *)
  Definition bagging_predict_log_proba (b : bagging) (X : arr A) : res (list (list A)) :=
    p <- bagging_predict_proba b X ;; apply_2d (ll p) safe_log.

  (** _bagging.py:48-51 *)
  Definition bagging_predict (b : bagging) (X : arr A) : res (list L) :=
    p <- bagging_predict_proba b X ;;
    am <- mapM argmax p ;;
    mapM (lnth (b_classes b)) am.

  (** _gb_losses.py:8: 1.1920929e-07 = 0x1.000000102f4fdp-23 *)
  Definition EPS : A := ofZE 4503599644147965 (-75).
  Definition half : A := ofZE 1 (-1).
  Definition two : A := ofZ 2.

  (** _gb_losses.py:11-17 *)
  Definition clip (a amin amax : A) : A :=
    if ltb a amin then amin else if gtb a amax then amax else a.

  (** The three loss classes (_gb_losses.py:20,55,89). *)
  Inductive loss := LMulti (n_classes : nat) | LBinary | LExponential.

  (** _gb_losses.py:81-86, 120-125: log odds of the clipped positive class *)
  Definition init_binary (f : A -> A) (p : list (list A)) : res (list (list A)) :=
    pos <- mapM (fun a => v <- lnth a 1 ;; Ok (clip v EPS (sub one EPS))) p ;;
    mapM (fun a => q <- div a (sub one a) ;; v <- safe_log q ;; Ok [f v]) pos.

  (** [get_init_raw_predictions] (_gb_losses.py:49-52, 81-86, 120-125) *)
  Definition get_init_raw (ls : loss) (X : arr A) (init : proba_fun) : res (list (list A)) :=
    p <- init X ;;
    match ls with
    | LMulti _ => apply_2d (ll p) (fun x => safe_log (clip x EPS (sub one EPS)))
    | LBinary => init_binary (fun v => v) p
    | LExponential => init_binary (fun v => mul half v) p
    end.

  (** _gb_losses.py:68-75, 102-110; mapping [expit] over rows that are still
      lists raises TypeError. *)
  Definition binary_proba (f : A -> res A) (raw : list (list A)) : res (list (list A)) :=
    w <- shape1 (ll raw) ;;
    p <- (match w with
          | Some 1%Z => ravel (ll raw)
          | _ => Err TypeError
          end) ;;
    p1 <- mapM f p ;;
    transpose (ll [map (fun x => sub one x) p1; p1]).

  (** [_raw_prediction_to_proba] (_gb_losses.py:33-43, 67-75, 101-110) *)
  Definition raw_to_proba (ls : loss) (raw : list (list A)) : res (list (list A)) :=
    match ls with
    | LMulti n =>
        ex <- apply_2d (ll raw) safe_exp ;;
        sums <- apply_axis_2d (ll ex) (fun r => Ok (psum r)) 1 ;;
        lse <- mapM safe_log sums ;;
        mapM (fun index =>
                mapM (fun i => r <- lnth raw index ;; v <- lnth r i ;;
                               s <- lnth lse index ;; safe_exp (sub v s))
                     (range n))
             (range (length raw))
    | LBinary => binary_proba expit raw
    | LExponential => binary_proba (fun x => e <- expit x ;; Ok (mul e two)) raw
    end.

  (** _gb.py:26-51: attributes of a converted gradient boosting classifier.
      [gb_init] is the init estimator's [predict_proba]; None when the fitted
      estimator had no [init_].  After conversion [init_] is never the string
      "zero", so the branch _gb.py:62-63 is dead. *)
  Record gb := {
    gb_estimators : list (list (tree A L));
    gb_init : option proba_fun;
    gb_lr : A;
    gb_nfeat : Z;
    gb_loss : loss;
    gb_classes : list L;
  }.

  (** _gb.py:53-66 *)
  Definition gb_raw_init (g : gb) (X : arr A) : res (list (list A)) :=
    X' <- check_array X HError ;;
    w <- shape1 X' ;;
    guard (match w with Some w => (w =? gb_nfeat g)%Z | None => false end) ValueError ;;
    match gb_init g with
    | None => Err AttributeError
    | Some init => get_init_raw (gb_loss g) X' init
    end.

  (** _gb.py:72-78: one column of scores *)
  Definition gb_column (g : gb) (X : arr A) (n : nat) (k : nat) : res (list A) :=
    foldM (fun col index =>
             row <- lnth (gb_estimators g) index ;;
             t <- lnth row k ;;
             preds <- reg_predict t X ;;
             mapM (fun i => c <- lnth col i ;; p <- lnth preds i ;; Ok (add c (mul p (gb_lr g))))
                  (range (length preds)))
          (range (length (gb_estimators g))) (rep zero n).

  (** _gb.py:68-81 *)
  Definition gb_raw_predict (g : gb) (X : arr A) : res (list (list A)) :=
    init <- gb_raw_init g X ;;
    e0 <- lnth (gb_estimators g) 0 ;;
    out <- mapM (fun k => n <- shape0 X ;; gb_column g X (Z.to_nat n) k) (range (length e0)) ;;
    out' <- transpose (ll out) ;;
    operate_2d (ll init) (ll out') add.

  (** _gb.py:83-85 *)
  Definition gb_predict_proba (g : gb) (X : arr A) : res (list (list A)) :=
    raw <- gb_raw_predict g X ;; raw_to_proba (gb_loss g) raw.
  (** _gb.py:87-88 *)
  Definition gb_predict_log_proba (g : gb) (X : arr A) : res (list (list A)) :=
    p <- gb_predict_proba g X ;; apply_2d (ll p) safe_log.
  (** _gb.py:90-92 *)
  Definition gb_predict (g : gb) (X : arr A) : res (list L) :=
    p <- gb_predict_proba g X ;;
    mapM (fun a => i <- argmax a ;; lnth (gb_classes g) i) p.

  (** _gb_losses.py:45-47, 77-79, 112-118 [_raw_prediction_to_decision]
      (not called by the classifier) *)
  Definition raw_to_decision (ls : loss) (raw : list (list A)) : res (list nat) :=
    match ls with
    | LExponential =>
        w <- shape1 (ll raw) ;;
        p <- (match w with Some 1%Z => ravel (ll raw) | _ => Err TypeError end) ;;
        Ok (map (fun a => if geb a zero then 1 else 0) p)
    | _ => p <- raw_to_proba ls raw ;; mapM argmax p
    end.
End Ensemble.
Arguments proba_fun A : clear implicits.
Arguments bagging A L : clear implicits.
Arguments gb A L : clear implicits.
