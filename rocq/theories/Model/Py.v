(** Python exceptions as values. *)

From Coq Require Import String List.
Import ListNotations.

(** The exceptions that can leave the modelled code. *)
Inductive exn :=
| ValueError (msg : string)
| AttributeError (msg : string)
| TypeError (msg : string)
| NotImplementedError (msg : string)
| ZeroDivisionError
| OverflowError (msg : string)
| IndexError
| KeyError
| LinAlgError
| ComplexResult.   (* not an exception in Python: [negative ** 0.5] leaves the reals *)

(** A Python call returns a value or raises. *)
Inductive res (A : Type) :=
| Ok (a : A)
| Raise (e : exn).
Arguments Ok {A}. Arguments Raise {A}.

Definition bind {A B} (r : res A) (f : A -> res B) : res B :=
  match r with Ok a => f a | Raise e => Raise e end.

Definition rmap {A B} (f : A -> B) (r : res A) : res B :=
  bind r (fun a => Ok (f a)).

(** Left-to-right evaluation of a list of computations (a Python list display). *)
Fixpoint sequence {A} (l : list (res A)) : res (list A) :=
  match l with
  | [] => Ok []
  | r :: l' => bind r (fun a => bind (sequence l') (fun l'' => Ok (a :: l'')))
  end.

Notation "'let*' x ':=' r 'in' k" := (bind r (fun x => k))
  (at level 200, x pattern, r at level 100, k at level 200).
