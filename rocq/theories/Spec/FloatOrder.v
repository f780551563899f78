(** Directions: how a result moves when one argument grows, in real numbers. *)

From Coq Require Import Reals List.
From Verif Require Import Model.Num Model.Py Model.Table Model.PyNum.
Import ListNotations.
Open Scope R_scope.

(** [args'] is [args] with the argument [i] possibly larger; the others are the same. *)
Definition grows {A} (value : A -> R) (d : A) (i : nat) (args args' : list A) : Prop :=
  length args = length args' /\ (forall k, k <> i -> nth k args d = nth k args' d) /\
  value (nth i args d) <= value (nth i args' d).

(** In exact arithmetic, with nonnegative arguments, result [j] of [f] never falls (rises)
    when argument [i] grows. *)
Definition exact_never_falls (f : fn) (i j : nat) : Prop :=
  forall arctan2 args args' out out', Forall (Rle 0) args -> Forall (Rle 0) args' -> grows (fun x => x) 0 i args args' ->
  run (Ufuncs_R arctan2) f args = Ok out -> run (Ufuncs_R arctan2) f args' = Ok out' -> nth j out 0 <= nth j out' 0.
Definition exact_never_rises (f : fn) (i j : nat) : Prop :=
  forall arctan2 args args' out out', Forall (Rle 0) args -> Forall (Rle 0) args' -> grows (fun x => x) 0 i args args' ->
  run (Ufuncs_R arctan2) f args = Ok out -> run (Ufuncs_R arctan2) f args' = Ok out' -> nth j out' 0 <= nth j out 0.
