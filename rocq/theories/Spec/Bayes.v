(** What "the Bayes posterior" and "the predictive distribution" mean. *)

From Coq Require Import Reals List.
From Coquelicot Require Import Coquelicot.
Import ListNotations.
Open Scope R_scope.

(** Sum and product of a list of reals, sum of a list of naturals. *)
Definition sumR (l : list R) : R := fold_right Rplus 0 l.
Definition prodR (l : list R) : R := fold_right Rmult 1 l.
Definition maxR (x : R) (l : list R) : R := fold_right Rmax x l.  (* max of x :: l *)
Definition sumN (l : list nat) : nat := fold_right Nat.add 0%nat l.

(** Likelihood of independent observations: [lik t o] is the density (mass) of
    one observation [o] at parameter [t]. *)
Definition likelihood {P O : Type} (lik : P -> O -> R) (data : list O) (t : P) : R :=
  prodR (map (lik t) data).

(** [post] is the posterior density given the prior density and the likelihood,
    for a parameter ranging over the interval whose ends are the filters [Fa], [Fb]:
    the evidence integral converges to a positive number and [post] is
    prior times likelihood divided by the evidence, everywhere. *)
Definition bayes_posterior (Fa Fb : (R -> Prop) -> Prop) (prior lik post : R -> R) : Prop :=
  exists evidence : R,
    0 < evidence /\
    is_RInt_gen (fun t => prior t * lik t) Fa Fb evidence /\
    forall t, post t = prior t * lik t / evidence.

(** [pred] is the marginal density (mass) at one outcome: the integral over the
    parameter of the outcome's density at the parameter times the parameter's density. *)
Definition marginal (Fa Fb : (R -> Prop) -> Prop) (dens lik : R -> R) (pred : R) : Prop :=
  is_RInt_gen (fun t => lik t * dens t) Fa Fb pred.

(** Equality of unnormalised densities up to a positive factor that does not depend on the parameter. *)
Definition proportional {P : Type} (dom : P -> Prop) (f g : P -> R) : Prop :=
  exists K, 0 < K /\ forall t, dom t -> f t = K * g t.
