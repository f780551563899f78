(** The vector a container stands for. *)

From Coq Require Import List.
From Verif Require Import Model.NdArray Model.DirichletModel.
Import ListNotations.

Definition holds {A} (c : container A) (l : list A) : Prop :=
  match c with
  | CNum _ => False
  | CList l' | CTuple l' => l' = l
  | CArr a => nd_shape a = [length l] /\ forall i d, (i < length l)%nat -> nd_entry a [i] = nth i l d
  end.

(** Two Python lists, or two tuples: [+] means concatenation. *)
Definition concatenates {A} (c c' : container A) : Prop :=
  match c, c' with CList _, CList _ | CTuple _, CTuple _ => True | _, _ => False end.

(** Element-wise sum of two vectors *)
Definition zip_with {A B C} (f : A -> B -> C) (l : list A) (l' : list B) : list C :=
  map (fun p => f (fst p) (snd p)) (combine l l').
