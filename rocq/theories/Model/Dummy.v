(** Model of pure_sklearn/dummy.py. *)
From Coq Require Import String.
From Verif Require Import Model.Py Model.Arith Model.Utils Model.Base.

Section Dummy.
  Context {A : arith}.

  (** dummy.py:20-31: attributes ([classes_] is not stored). *)
  Record dummy := { dm_prior : list A }.

  (** dummy.py:20-31 [__init__]: the strategy is [_strategy] if present, else
      [strategy]. *)
  Definition dummy_convert (ustrategy : option pystr) (strategy : pystr) (prior : list A) : res dummy :=
    guard (str_eqb (match ustrategy with Some s => s | None => strategy end) (lit "prior")) ValueError ;;
    Ok {| dm_prior := prior |}.

  (** dummy.py:33-34; the elements are class *indices* *)
  Definition dummy_predict (d : dummy) (X : arr A) : res (list nat) :=
    i <- argmax (dm_prior d) ;; n <- len X ;; Ok (rep i n).
  (** dummy.py:36-37; see Model/Sharing.v for the sharing of the result *)
  Definition dummy_predict_proba (d : dummy) (X : arr A) : res (list (list A)) :=
    n <- len X ;; Ok (rep (dm_prior d) n).
  (** dummy.py:39-40 *)
  Definition dummy_predict_log_proba (d : dummy) (X : arr A) : res (list (list A)) :=
    p <- dummy_predict_proba d X ;; apply_2d (ll p) safe_log.
End Dummy.
Arguments dummy A : clear implicits.
