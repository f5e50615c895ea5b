(** Model of pure_sklearn/utils.py:16-41 [check_types] on graphs of Python
    objects. *)
From Verif Require Import Model.Py.

Definition addr := nat.

(** Objects, with the addresses of what they refer to.  [exact] is false for
    an instance of a proper subclass, such as numpy.float64 (of float) or
    sparse_list (of list), whose own attributes are [attrs]. *)
Inductive pyobj :=
| OSeq (exact : bool) (elems : list addr) (attrs : list (pystr * addr))     (* list, tuple *)
| ODict (exact : bool) (entries : list (addr * addr)) (attrs : list (pystr * addr))
| OScalar (exact : bool)                                     (* int, float, str, bool, type *)
| OPure (attrs : list (pystr * addr))                  (* "pure_sklearn" in str(type(obj)) *)
| ONone
| OOther.
Definition heap := list pyobj.

(** utils.py:16-41 [check_types(obj)]; [fuel] is the number of nested calls
    Python still allows (RecursionError when it is used up).  An address
    outside the heap is no object at all and does not occur. *)
Fixpoint check_types (h : heap) (fuel : nat) (a : addr) : res unit :=
  match fuel with
  | O => Err OtherException
  | S n =>
      match nth_error h a with
      | Some (OSeq _ elems _) => foldM (fun _ b => check_types h n b) elems tt
      | Some (ODict _ entries _) =>
          foldM (fun _ kv => check_types h n (fst kv) ;; check_types h n (snd kv)) entries tt
      | Some (OScalar _) => Ok tt
      | Some (OPure attrs) => foldM (fun _ kv => check_types h n (snd kv)) attrs tt
      | Some ONone => Ok tt
      | Some OOther | None => Err ValueError
      end
  end.

(** A constructor: its [body] sets the attributes of a new object, then calls
    [check_types(self)] (the last line of every [__init__] in pure_sklearn). *)
Definition construct (body : heap -> res (heap * addr)) (h : heap) (limit : nat) : res (heap * addr) :=
  ha <- body h ;; check_types (fst ha) limit (snd ha) ;; Ok ha.
