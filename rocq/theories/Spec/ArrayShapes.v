(** What the matrix functions do with the shapes of their arguments. *)

From Coq Require Import List.
From Verif Require Import Model.Py Model.NdArray.
Import ListNotations.

(** A vector of [n] numbers, stored flat or as a column *)
Definition vec_shape (column : bool) (n : nat) : list nat := if column then [n; 1] else [n].

(** [inv] gives an array of the same shape when it returns (np.linalg.inv). *)
Definition keeps_shape {A} (inv : nd A -> res (nd A)) : Prop := forall a b, inv a = Ok b -> nd_shape b = nd_shape a.

(** The call returns something with property [P], unless [inv] itself fails: then
    the exception of [inv] is passed on. *)
Definition returns_unless {A B} (inv : nd A -> res (nd A)) (r : res B) (P : B -> Prop) : Prop :=
  (exists b, r = Ok b /\ P b) \/ (exists a e, inv a = Raise e /\ r = Raise e).
(** The call raises an exception. *)
Definition fails {B} (r : res B) : Prop := exists e, r = Raise e.

(** The place of the entry with index [i] when an array of shape [s] is written out row by row
    (C order): the last axis runs fastest. *)
Fixpoint place_from (k : nat) (s i : list nat) : nat :=
  match s, i with d :: s, j :: i => place_from (k * d + j) s i | _, _ => k end.
Definition place (s i : list nat) : nat := place_from 0 s i.
(** [i] is an index of an array of shape [s]. *)
Definition index_of (s i : list nat) : Prop := Forall2 (fun j d => (j < d)%nat) i s.
