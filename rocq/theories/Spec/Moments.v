(** Mean and variance of a density, as integrals. *)

From Coq Require Import Reals.
From Coquelicot Require Import Coquelicot.
Open Scope R_scope.

(** [m] is the mean of the density [f] on the interval (Fa, Fb). *)
Definition is_mean (Fa Fb : (R -> Prop) -> Prop) (f : R -> R) (m : R) : Prop :=
  is_RInt_gen (fun x => x * f x) Fa Fb m.

(** [v] is the variance of the density [f], whose mean is [m]. *)
Definition is_variance (Fa Fb : (R -> Prop) -> Prop) (f : R -> R) (v : R) : Prop :=
  exists m, is_mean Fa Fb f m /\ is_RInt_gen (fun x => (x - m) ^ 2 * f x) Fa Fb v.

(** [z] lies strictly between [x] and [y], or all three coincide. *)
Definition between (x y z : R) : Prop := x < z < y \/ y < z < x \/ (x = z /\ z = y).
