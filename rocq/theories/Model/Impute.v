(** Model of pure_sklearn/impute/_base.py.  Cells are numbers (string and
    object columns, for which math.isnan raises TypeError, are not modelled). *)
From Coq Require Import String.
From Verif Require Import Model.Py Model.Arith Model.Utils Model.Base.

Section Impute.
  Context {A : arith}.

  (** impute/_base.py:11-15 [_to_impute] *)
  Definition to_impute (missing v : A) : bool :=
    if isnan missing then isnan v else eqb v missing.

  (** impute/_base.py:26-37 *)
  Record indicator := {
    mi_features : pystr;          (* "missing-only" or "all" *)
    mi_fitted : list Z;           (* features_ *)
    mi_nfeat : Z;
    mi_missing : A;
    mi_error : bool;              (* error_on_new *)
  }.

  Definition count_true (l : list bool) : Z := Z.of_nat (List.length (filter (fun b => b) l)).
  Definition of_bool (b : bool) : A := if b then one else zero.

  (** impute/_base.py:64-74 [_get_missing_features_info].  With
      "missing-only" the "features" are the non-zero *counts* per column.  Any
      other string than "all" leaves [n_missing] unbound (NameError). *)
  Definition missing_info (t : indicator) (X : arr A) : res (list (list bool) * list Z) :=
    mask <- apply_2d X (fun v => Ok (to_impute (mi_missing t) v)) ;;
    if str_eqb (mi_features t) (lit "missing-only") then
      let n_missing := map count_true (zipstar mask) in
      Ok (mask, filter (fun a => negb (a =? 0)%Z) n_missing)
    else if str_eqb (mi_features t) (lit "all") then
      w <- shape1 X ;;
      Ok (mask, zrange 0 (match w with Some w => w | None => 0%Z end))
    else Err NameError.

  (** impute/_base.py:39-62 [transform].  The cells are Python bools, or
      floats when columns are dropped; True == 1.0 and False == 0.0, and both
      are modelled as numbers. *)
  Definition indicator_transform (t : indicator) (X : arr A) : res (list (list A)) :=
    X1 <- check_array X HError ;;
    w <- shape1 X1 ;;
    guard (match w with Some w => (w =? mi_nfeat t)%Z | None => false end) ValueError ;;
    '(mask, features) <- missing_info t X1 ;;
    if str_eqb (mi_features t) (lit "missing-only") then
      let diff := filter (fun f => negb (mem Z.eqb f (mi_fitted t))) features in
      guard (negb (mi_error t && match diff with [] => false | _ => true end)) ValueError ;;
      if (Z.of_nat (List.length (mi_fitted t)) <? mi_nfeat t)%Z then
        Ok (map (fun a =>
                   map (fun iv => of_bool (snd iv))
                       (filter (fun iv => mem Z.eqb (Z.of_nat (fst iv)) (mi_fitted t))
                               (combine (range (List.length a)) a))) mask)
      else Ok (map (map of_bool) mask)
    else Ok (map (map of_bool) mask).

  (** impute/_base.py:85-101; [si_indicator] None = no [indicator_] *)
  Record imputer := {
    si_stats : list A;
    si_strategy : pystr;
    si_missing : A;
    si_add : bool;
    si_indicator : option indicator;
  }.

  (** impute/_base.py:98-100: the indicator of a converted imputer never
      raises on new missing features *)
  Definition imputer_convert (stats : list A) (strategy : pystr) (missing : A) (add_ind : bool)
             (ind : option indicator) : imputer :=
    {| si_stats := stats; si_strategy := strategy; si_missing := missing; si_add := add_ind;
       si_indicator := option_map
         (fun t => {| mi_features := mi_features t; mi_fitted := mi_fitted t;
                      mi_nfeat := mi_nfeat t; mi_missing := mi_missing t;
                      mi_error := false |}) ind |}.

  Definition removed (s : imputer) : list nat :=
    if str_eqb (si_strategy s) (lit "constant") then []
    else map fst (filter (fun iv => isnan (snd iv))
                         (combine (range (List.length (si_stats s))) (si_stats s))).

  (** impute/_base.py:131-167 [transform] *)
  Definition imputer_transform (s : imputer) (X : arr A) : res (list (list A)) :=
    X1 <- check_array X HError ;;
    ind <- (if si_add s then
              match si_indicator s with
              | None => Err ValueError
              | Some t => ind <- indicator_transform t X1 ;; Ok (Some ind)
              end
            else Ok None) ;;
    w <- shape1 X1 ;;
    (match si_stats s with
     | [] => Err IndexError
     | _ => guard (match w with
                   | Some w => (w =? Z.of_nat (List.length (si_stats s)))%Z
                   | None => false
                   end) ValueError
     end) ;;
    l <- items X1 ;;
    let rm := removed s in
    rows <- (match rm with
             | [] => Ok l
             | _ => mapM (fun a =>
                            n <- item_len a ;;
                            r <- mapM (fun i => item_get a (Z.of_nat i))
                                      (filter (fun i => negb (mem Nat.eqb i rm)) (range n)) ;;
                            Ok (Ls r)) l
             end) ;;
    let stats := match rm with
                 | [] => si_stats s
                 | _ => map snd (filter (fun iv => negb (mem Nat.eqb (fst iv) rm))
                                        (combine (range (List.length (si_stats s))) (si_stats s)))
                 end in
    imp <- mapM (fun a =>
                   n <- item_len a ;;
                   mapM (fun i => v <- item_get a (Z.of_nat i) ;;
                                  if to_impute (si_missing s) v then lnth stats i else Ok v)
                        (range n)) rows ;;
    match ind with
    | None => Ok imp
    | Some mk => mapM (fun i => a <- lnth imp i ;; b <- lnth mk i ;; Ok (a ++ b))
                     (range (List.length imp))
    end.
End Impute.
Arguments indicator A : clear implicits.
Arguments imputer A : clear implicits.
