(** What "scaling a distribution by k" means in docs/examples/scaling-distributions.md:37:
    the distribution of k times the variable. *)

From Coq Require Import Reals.
From Coquelicot Require Import Coquelicot.
Open Scope R_scope.

(** If X has density [f] on [D] then k * X has density [g]: X lies between a and b with the
    probability that k * X lies between k a and k b. *)
Definition scaled_law (D : R -> Prop) (f : R -> R) (k : R) (g : R -> R) : Prop :=
  forall a b, D a -> D b -> a < b -> exists p, is_RInt f a b p /\ is_RInt g (k * a) (k * b) p.
