(** What makes a function a density or a mass function. *)

From Coq Require Import Reals ZArith.
From Coquelicot Require Import Coquelicot.
Open Scope R_scope.

(** Approaching the ends of an interval whose ends may be infinite *)
Definition from (lo : Rbar) : (R -> Prop) -> Prop :=
  match lo with Finite a => at_right a | _ => Rbar_locally lo end.
Definition upto (hi : Rbar) : (R -> Prop) -> Prop :=
  match hi with Finite b => at_left b | _ => Rbar_locally hi end.

(** A probability density with support between [lo] and [hi] *)
Definition is_density (lo hi : Rbar) (f : R -> R) : Prop :=
  (forall x : R, 0 <= f x) /\
  (forall x : R, Rbar_lt x lo \/ Rbar_lt hi x -> f x = 0) /\
  is_RInt_gen f (from lo) (upto hi) 1.

(** A probability mass function on the integers from [lo] on *)
Definition is_mass (lo : Z) (f : Z -> R) : Prop :=
  (forall z, 0 <= f z) /\ (forall z, (z < lo)%Z -> f z = 0) /\
  is_series (fun k : nat => f (lo + Z.of_nat k)%Z) 1.
