(** numpy arrays with broadcasting, as the element type of the models.

    An array is its shape and its entry at every multi-index; a Python scalar is
    an array of shape [].  Every operation of the numeric interface is a ufunc:
    it broadcasts its operands (numpy's rule, trailing dimensions first) and
    acts entry by entry, or raises ValueError when the shapes are incompatible.
    Not modelled: dtypes, integer overflow, views. *)

From Coq Require Import ZArith Bool List String.
From Verif Require Import Model.Num Model.Py Model.Table.
Import ListNotations.

Record nd (A : Type) := mkNd { nd_shape : list nat; nd_entry : list nat -> A }.
Arguments mkNd {A}. Arguments nd_shape {A}. Arguments nd_entry {A}.

(** numpy broadcasting of shapes, on reversed shapes *)
Fixpoint bc (s t : list nat) : option (list nat) :=
  match s, t with
  | [], _ => Some t
  | _, [] => Some s
  | a :: s', b :: t' =>
      match bc s' t' with
      | None => None
      | Some u => if Nat.eqb a b then Some (a :: u) else if Nat.eqb a 1 then Some (b :: u)
                  else if Nat.eqb b 1 then Some (a :: u) else None
      end
  end.
Definition broadcast_shapes (s t : list nat) : option (list nat) :=
  option_map (@rev nat) (bc (rev s) (rev t)).

(** The entry of an array of shape [s] that broadcasting puts at index [i]:
    trailing components of [i], with 0 in the dimensions of size 1. *)
Fixpoint proj (s i : list nat) : list nat :=
  match s, i with
  | d :: s', k :: i' => (if Nat.eqb d 1 then 0 else k) :: proj s' i'
  | _ :: s', [] => 0 :: proj s' []
  | [], _ => []
  end.
Definition at_index {A} (i : list nat) (a : nd A) : A :=
  nd_entry a (rev (proj (rev (nd_shape a)) (rev i))).

Definition scalar {A} (a : A) : nd A := mkNd [] (fun _ => a).
Definition map1 {A} (f : A -> A) (a : nd A) : nd A := mkNd (nd_shape a) (fun i => f (nd_entry a i)).
Definition map2 {A} (f : A -> A -> A) (a b : nd A) : res (nd A) :=
  match broadcast_shapes (nd_shape a) (nd_shape b) with
  | Some s => Ok (mkNd s (fun i => f (at_index i a) (at_index i b)))
  | None => Raise (ValueError "operands could not be broadcast together")
  end.

(** Expressions over arrays are evaluated left to right; the first exception wins. *)
Definition lift1 {A} (f : A -> A) (a : res (nd A)) : res (nd A) := rmap (map1 f) a.
Definition lift2 {A} (f : A -> A -> A) (a b : res (nd A)) : res (nd A) :=
  bind a (fun a => bind b (fun b => map2 f a b)).

#[export] Instance NumNd {A} (NA : Num A) : Num (res (nd A)) := {|
  nadd := lift2 nadd; nsub := lift2 nsub; nmul := lift2 nmul; ndiv := lift2 ndiv;
  nlit := fun z => Ok (scalar (nlit z)); nhalf := Ok (scalar nhalf);
  nsq := lift1 nsq; nsqrt := lift1 nsqrt; nrsqrt := lift1 nrsqrt; npow := lift2 npow
|}.

Definition Ufuncs_nd {A} (U : Ufuncs A) : Ufuncs (res (nd A)) :=
  mkUfuncs (lift1 (u_ln U)) (lift2 (u_max U)) (lift1 (u_sin U)) (lift1 (u_cos U)) (lift2 (u_arctan2 U)).

(** A call with array arguments: all parameters of the result are computed, in order. *)
Definition run_nd {A} {NA : Num A} (U : Ufuncs A) (f : fn) (args : list (nd A)) : res (list (nd A)) :=
  bind (run (NA := NumNd NA) (Ufuncs_nd U) f (map Ok args)) (fun out => sequence out).

(** Shapes alone: every binary operation broadcasts. *)
Definition shape2 (a b : res (list nat)) : res (list nat) :=
  bind a (fun s => bind b (fun t => match broadcast_shapes s t with
    | Some u => Ok u
    | None => Raise (ValueError "operands could not be broadcast together") end)).
Definition NumShape : Num (res (list nat)) := {|
  nadd := shape2; nsub := shape2; nmul := shape2; ndiv := shape2;
  nlit := fun _ => Ok []; nhalf := Ok []; nsq := fun a => a; nsqrt := fun a => a; nrsqrt := fun a => a; npow := shape2
|}.
Definition Ufuncs_shape : Ufuncs (res (list nat)) :=
  mkUfuncs (fun a => a) shape2 (fun a => a) (fun a => a) shape2.
