(** What [@dataclass] gives every class of distributions.py besides the constructor and
    [==]: [repr].

    distributions.py:38 (the import) and the decorator before each class: the defaults of
    [dataclass]; no class of the module defines [__repr__] or [__str__]. *)

From Coq Require Import Bool String Reals.
From Verif Require Import Model.Num Model.Py Model.NdArray Model.SliceModel Model.Dataclass.
From Coq Require Import List.
Import ListNotations.
Open Scope string_scope.

(** [repr] of the value of a field; [show] is that of a Python number and [show_array] that
    of a numpy array (external) *)
Definition repr_value (show : R -> string) (show_array : nd R -> string) (v : value) : string :=
  match v with
  | VNone => "None"
  | VParam _ (PFlag true) => "True"
  | VParam _ (PFlag false) => "False"
  | VParam _ (PList l) => "[" ++ String.concat ", " (map show l) ++ "]"
  | VParam _ (PArr a) => match nd_shape a with nil => show (nd_entry a []) | _ => show_array a end
  end.
(** The generated [__repr__] (Lib/dataclasses.py _repr_fn): the qualified name of the class
    and the fields in order *)
Definition repr (show : R -> string) (show_array : nd R -> string) (o : dobj) : string :=
  d_class o ++ "(" ++ String.concat ", " (map (fun p => fst p ++ "=" ++ repr_value show show_array (snd p)) (d_values o)) ++ ")".
