(** Vocabulary for pipelines and feature unions. *)
From Verif Require Import Model.Py Model.Arith Model.Utils Model.DictVec Model.Text Model.Pipeline
  Spec.Matrix.

Section Pipe.
  Context {A : arith} {L V : Type}.

  (** Feeding [X] to the transform of each object in turn gives [Z]. *)
  Inductive applied : list (obj A L V) -> data A V -> data A V -> Prop :=
  | applied_nil : forall X, applied [] X X
  | applied_cons : forall o rest f X Y Z,
      o_transform o = Some f -> t_value (f X) = Ok Y -> applied rest Y Z ->
      applied (o :: rest) X Z.

  (** ... or stops with exception [e]: an object without transform, or one
      whose transform raises. *)
  Inductive stops_with : list (obj A L V) -> data A V -> exn -> Prop :=
  | stops_attr : forall o rest X, o_transform o = None -> stops_with (o :: rest) X AttributeError
  | stops_here : forall o rest f X e,
      o_transform o = Some f -> t_value (f X) = Err e -> stops_with (o :: rest) X e
  | stops_later : forall o rest f X Y e,
      o_transform o = Some f -> t_value (f X) = Ok Y -> stops_with rest Y e ->
      stops_with (o :: rest) X e.

  (** [M] has [n] rows; row i is row i of each of the [Ms], side by side. *)
  Definition beside (n : nat) (Ms : list (list (list A))) (M : list (list A)) : Prop :=
    length M = n /\
    forall i row, nth_error M i = Some row ->
      exists rows, Forall2 (fun M' r => nth_error M' i = Some r) Ms rows /\ row = concat rows.

  (** [M'] is [M] with every cell multiplied by [w], if there is a weight. *)
  Definition scaled (w : option A) (M M' : list (list A)) : Prop :=
    match w with
    | None => M' = M
    | Some w => Forall2 (Forall2 (fun x y => y = mul x w)) M M'
    end.

  (** Transforming [X] with [o] succeeds, gives [Y] and leaves [X] alone. *)
  Definition gives (o : obj A L V) (X : data A V) (Y : arr A) : Prop :=
    exists f, o_transform o = Some f /\ t_value (f X) = Ok (DNum Y) /\ t_after (f X) = X.

  (** Calling the transform of each object in turn on one and the same object,
      whose contents are [X] before the first call and [X'] after the last,
      returns [ys] (None: that object itself). *)
  Inductive in_turn : list (obj A L V) -> data A V -> list (option (data A V)) -> data A V -> Prop :=
  | in_turn_nil : forall X, in_turn [] X [] X
  | in_turn_cons : forall o rest f X y ys X',
      o_transform o = Some f -> t_out (f X) = Ok y -> in_turn rest (t_after (f X)) ys X' ->
      in_turn (o :: rest) X (y :: ys) X'.
  (** What is read from a returned object once the contents of X are [X']. *)
  Definition reads (X' : data A V) (y : option (data A V)) (Y : arr A) : Prop :=
    DNum Y = match y with None => X' | Some D => D end.

  (** [Y] is the n x c matrix [M], as a list of lists or as a sparse_list. *)
  Definition represents (Y : arr A) (M : list (list A)) (n c : nat) : Prop :=
    rect M n c /\
    (Y = ll M \/ exists rows dt, Y = Sp rows (Some (Z.of_nat c)) dt /\ Forall2 stores rows M).

  (** [X] is a non-empty list of [n] rows, documents or mappings. *)
  Definition batch (X : data A V) (n : nat) : Prop :=
    1 <= n /\
    match X with
    | DNum (Arr l) => length l = n
    | DNum (Sp rows _ _) => length rows = n
    | DCats (Arr l) => length l = n
    | DCats (Sp rows _ _) => length rows = n
    | DDocs (RawDocs l) => length l = n
    | DMaps (Maps l) => length l = n
    | _ => False
    end.

  (** The weight given to the member called [nm]. *)
  Definition weight_of (weights : option (dict pystr A)) (nm : pystr) : option A :=
    match weights with None => None | Some w => dlookup str_eqb nm w end.
End Pipe.
