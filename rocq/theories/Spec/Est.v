(** Vocabulary for statements about every converted estimator. *)
From Verif Require Import Model.Py Model.Arith Model.Utils Model.DictVec Model.Text Model.Pipeline Model.Est.

Section Est.
  Context {A : arith} {L V : Type}.

  (** [p] is [e], or occurs somewhere inside it: a member of an ensemble or
      union, a step of a pipeline, an init estimator, at any depth. *)
  Inductive part : est A L V -> est A L V -> Prop :=
  | part_self : forall e, part e e
  | part_bagging : forall ms fs cl e p, In e ms -> part e p -> part (EBagging ms fs cl) p
  | part_gb : forall ts lr nf ls cl e p, part e p -> part (EGb ts (Some e) lr nf ls cl) p
  | part_pipeline : forall steps nm e p, In (nm, e) steps -> part e p -> part (EPipeline steps) p
  | part_union : forall ms w nm e p, In (nm, e) ms -> part e p -> part (EUnion ms w) p.

  (** The public methods. *)
  Inductive method := Transform | Predict | PredictProba | PredictLogProba.

  (** The contents of the caller's [X] after calling a method of [o] on it
      (reading a missing method raises AttributeError). *)
  Definition left_by (o : obj A L V) (m : method) (X : data A V) : data A V :=
    match m with
    | Transform => match o_transform o with Some f => t_after (f X) | None => X end
    | Predict => match o_predict o with Some f => snd (f X) | None => X end
    | PredictProba => match o_proba o with Some f => snd (f X) | None => X end
    | PredictLogProba => match o_log_proba o with Some f => snd (f X) | None => X end
    end.

  (** No row of [X] is a dict: documents, mappings, categories, list rows. *)
  Definition no_dict_rows (X : data A V) : Prop :=
    match X with
    | DNum (Arr l) => forall d, ~ In (Di d) l
    | DNum (Sp _ _ _) => False
    | _ => True
    end.

  (** An empty list, the exception object made from one, or another object
      that is not a list. *)
  Definition nothing (X : data A V) : Prop :=
    X = DNum (Arr []) \/ X = DNum ExnObj \/ X = DDocs (RawDocs []) \/ X = DMaps (Maps []) \/
    X = DCats (Arr []) \/ X = DCats ExnObj \/ X = DNum NotList.
  Definition no_preds (p : preds A L) : Prop := p = PLab [] \/ p = PIdx [] \/ p = PNum [].
End Est.
