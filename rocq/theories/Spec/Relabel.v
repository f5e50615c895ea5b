(** Vocabulary for C83 and C84: changing the names of the classes, and
    comparing objects. *)
From Verif Require Import Model.Py Model.Arith Model.Tree Model.Ensemble Model.Xgb Model.Linear
  Model.NaiveBayes Model.Pipeline Model.Est.

Section Relabel.
  Context {A : arith} {L K V : Type}.
  Variable (f : L -> K).

  (** The same fitted model with every class name [c] replaced by [f c].  The
      number, order and position of the classes stay. *)
  Definition relabel_tree (t : tree A L) : tree A K :=
    {| t_left := t_left t; t_right := t_right t; t_feature := t_feature t; t_thr := t_thr t;
       Tree.t_value := Tree.t_value t; t_classes := map f (t_classes t) |}.
  Definition relabel_xgb (g : xgb A L) : xgb A K :=
    {| xg_objective := xg_objective g; xg_classes := map f (xg_classes g);
       xg_nclasses := xg_nclasses g; xg_nest := xg_nest g;
       xg_estimators := map (fun r => match r with
                                      | One t => One (relabel_tree t)
                                      | Many l => Many (map relabel_tree l)
                                      end) (xg_estimators g) |}.
  Definition relabel_linear (c : linear A L) : linear A K :=
    {| l_coef := l_coef c; l_classes := map f (l_classes c); l_intercept := l_intercept c;
       l_multi := l_multi c; l_solver := l_solver c; l_loss := l_loss c |}.
  Definition relabel_nb (m : nb A L) : nb A K :=
    match m with
    | Gaussian g => Gaussian {| g_prior := g_prior g; g_classes := map f (g_classes g);
                                g_sigma := g_sigma g; g_theta := g_theta g |}
    | Multinomial d => Multinomial {| d_log_prior := d_log_prior d; d_classes := map f (d_classes d);
                                      d_log_prob := d_log_prob d |}
    | Complement d => Complement {| d_log_prior := d_log_prior d; d_classes := map f (d_classes d);
                                    d_log_prob := d_log_prob d |}
    end.
  Fixpoint relabel (e : est A L V) : est A K V :=
    match e with
    | ETree t => ETree (relabel_tree t)
    | EReg t => EReg (relabel_tree t)
    | EBagging ms fs cl => EBagging (map relabel ms) fs (map f cl)
    | EGb ts init lr nf ls cl =>
        EGb (map (map relabel_tree) ts) (option_map relabel init) lr nf ls (map f cl)
    | EXgb g => EXgb (relabel_xgb g)
    | ELinear k c => ELinear k (relabel_linear c)
    | ENb m => ENb (relabel_nb m)
    | EDummy d => EDummy d
    | ENormalizer nm => ENormalizer nm
    | EStd s => EStd s
    | EMinMax s => EMinMax s
    | EMaxAbs s => EMaxAbs s
    | EOneHot e => EOneHot e
    | EOrdinal e => EOrdinal e
    | EIndicator t => EIndicator t
    | EImputer s => EImputer s
    | EDictVec d => EDictVec d
    | ECount c => ECount c
    | ETfidf t => ETfidf t
    | ETfidfVec c t => ETfidfVec c t
    | EHashVec h => EHashVec h
    | EPipeline steps => EPipeline (map (fun ne => (fst ne, relabel (snd ne))) steps)
    | EUnion ms w => EUnion (map (fun ne => (fst ne, relabel (snd ne))) ms) w
    end.

  (** The answer of [predict] with the new names. *)
  Definition renamed (p : preds A L) : preds A K :=
    match p with PLab l => PLab (map f l) | PIdx l => PIdx l | PNum l => PNum l end.
End Relabel.

(** Two methods that are both absent, or whose results on every input are
    related. *)
Definition both {X Y Z} (R : Y -> Z -> Prop) (m : option (X -> Y)) (m' : option (X -> Z)) : Prop :=
  match m, m' with
  | None, None => True
  | Some g, Some g' => forall x, R (g x) (g' x)
  | _, _ => False
  end.

(** Two objects nobody can tell apart by calling them, whatever the input:
    same methods, same results, same exceptions, same effect on the input. *)
Definition same_obj {A L V} (o o' : obj A L V) : Prop :=
  both eq (o_transform o) (o_transform o') /\
  both eq (o_predict o) (o_predict o') /\
  both eq (o_proba o) (o_proba o') /\
  both eq (o_log_proba o) (o_log_proba o') /\
  o_classes o = o_classes o'.
