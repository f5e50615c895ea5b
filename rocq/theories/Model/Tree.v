(** Model of pure_sklearn/tree/_classes.py. *)
From Coq Require Import String.
From Verif Require Import Model.Py Model.Arith Model.Utils Model.Base.

Section Tree.
  Context {A : arith} {L : Type}.

  (** tree/_classes.py:44-54: the attributes of a converted tree.
      [L] is the type of class labels, which the code only copies. *)
  Record tree := {
    t_left : list Z;
    t_right : list Z;
    t_feature : list Z;
    t_thr : list A;
    t_value : list (list A);
    t_classes : list L;
  }.

  (** One tree of [Booster.trees_to_dataframe()], columns as lists.  [None] is
      a missing (NaN, i.e. non-string) entry of the Yes / No columns. *)
  Record xgb_tree := {
    x_feature : list pystr;
    x_split : list A;
    x_yes : list (option pystr);
    x_no : list (option pystr);
    x_gain : list A;
  }.

  (** tree/_classes.py:25,31: [-1 if not isinstance(x, str) else int(x.split("-")[-1])] *)
  Definition xgb_child (x : option pystr) : res Z :=
    match x with
    | None => Ok (-1)%Z
    | Some s => w <- lget (str_split_on 45 s) (-1) ;; int_of_str w
    end.
  (** tree/_classes.py:37: [-2 if x == "Leaf" else int(x.replace("f", "")[-1])] *)
  Definition xgb_feature (x : pystr) : res Z :=
    if str_eqb x (lit "Leaf") then Ok (-2)%Z
    else c <- lget (str_remove 102 x) (-1) ;; int_of_str [c].

  (** tree/_classes.py:17-40: [_DecisionTreeBase.__init__] on an xgboost dict.
      No [classes_] attribute is set in this case. *)
  Definition tree_of_xgb (x : xgb_tree) : res tree :=
    l <- mapM xgb_child (x_yes x) ;;
    r <- mapM xgb_child (x_no x) ;;
    f <- mapM xgb_feature (x_feature x) ;;
    Ok {| t_left := l; t_right := r; t_feature := f;
          t_thr := map (fun v => if isnan v then ofZ (-2) else v) (x_split x);
          t_value := map (fun a => [a]) (x_gain x);
          t_classes := [] |}.

  (** tree/_classes.py:58-61 [left_equal] *)
  Definition split_value (t : tree) (x : item A) (nd : Z) : res A :=
    f <- lget (t_feature t) nd ;;
    match x with
    | Di d => Ok (dget_default Z.eqb d f zero)
    | _ => item_get x f
    end.

  (** tree/_classes.py:64-72: the while loop, at most [fuel] tests of its
      condition; [Diverges] when the fuel is used up. *)
  Fixpoint descend (t : tree) (x : item A) (fuel : nat) (nd : Z) : res Z :=
    match fuel with
    | O => Err Diverges
    | S n =>
        l <- lget (t_left t) nd ;;
        r <- lget (t_right t) nd ;;
        if (l =? r)%Z then Ok nd
        else v <- split_value t x nd ;;
             h <- lget (t_thr t) nd ;;
             if leb v h then descend t x n l else descend t x n r
    end.

  (** tree/_classes.py:57-72 [_get_leaf_node].  A valid node id is in [-n, n),
      so the loop either stops within 2n rounds or never does. *)
  Definition get_leaf_node (t : tree) (x : item A) : res Z :=
    descend t x (S (2 * List.length (t_left t))) 0.

  (** tree/_classes.py:83-84 *)
  Definition leaf_pred (t : tree) (nd : Z) : res nat :=
    v <- lget (t_value t) nd ;; argmax v.
  (** tree/_classes.py:86-87 *)
  Definition leaf_proba (t : tree) (nd : Z) : res (list A) :=
    v <- lget (t_value t) nd ;; mapM (fun a => div a (psum v)) v.

  Definition leaves (t : tree) (X : arr A) : res (list Z) :=
    X' <- check_array X HAllow ;;
    l <- items X' ;;
    mapM (get_leaf_node t) l.

  (** tree/_classes.py:89-93 *)
  Definition tree_predict (t : tree) (X : arr A) : res (list L) :=
    lv <- leaves t X ;;
    preds <- mapM (leaf_pred t) lv ;;
    mapM (lnth (t_classes t)) preds.
  (** tree/_classes.py:95-98 *)
  Definition tree_predict_proba (t : tree) (X : arr A) : res (list (list A)) :=
    lv <- leaves t X ;; mapM (leaf_proba t) lv.
  (** tree/_classes.py:100-101 *)
  Definition tree_predict_log_proba (t : tree) (X : arr A) : res (list (list A)) :=
    p <- tree_predict_proba t X ;; mapM (mapM safe_log) p.

  (** tree/_classes.py:112-113 *)
  Definition leaf_value (t : tree) (nd : Z) : res A :=
    v <- lget (t_value t) nd ;; lnth v 0.
  (** tree/_classes.py:115-118 [DecisionTreeRegressorPure.predict] *)
  Definition reg_predict (t : tree) (X : arr A) : res (list A) :=
    lv <- leaves t X ;; mapM (leaf_value t) lv.
End Tree.
Arguments tree A L : clear implicits.
Arguments xgb_tree A : clear implicits.
