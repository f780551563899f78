(** Nothing is learned on average: averaged over the observations that are
    predicted, the posterior is the prior. *)

From Coq Require Import Reals.
From Coquelicot Require Import Coquelicot.
From Verif Require Import Model.Py Spec.Bayes Spec.Moments.
From Coq Require Import List.
Import ListNotations.
Open Scope R_scope.

(** Adding up over observations: all natural numbers, those up to [n], the
    members of a list, an interval of real numbers *)
Definition over_nat (w : nat -> R) (l : R) : Prop := is_series w l.
Definition up_to (n : nat) (w : nat -> R) (l : R) : Prop := sum_f_R0 w n = l.
Definition over_list {O : Type} (s : list O) (w : O -> R) (l : R) : Prop := sumR (map w s) = l.
Definition over_reals (Fa Fb : (R -> Prop) -> Prop) (w : R -> R) (l : R) : Prop := is_RInt_gen w Fa Fb l.

(** At every parameter in [dom], the densities of the posteriors, weighted by the
    predicted probabilities of the observations, add up to the density of the prior. *)
Definition calibrated {P D O : Type} (Sum : (O -> R) -> R -> Prop) (dens : D -> P -> R)
  (update : D -> O -> res D) (predict : D -> O -> res R) (dom : P -> Prop) (ok : D -> Prop) (obs : O -> Prop) : Prop :=
  forall (d : D) (t : P), ok d -> dom t -> exists w : O -> R,
    (forall o, obs o -> exists p d', predict d o = Ok p /\ update d o = Ok d' /\ w o = p * dens d' t) /\
    Sum w (dens d t).

(** So do the means (the sequence of posterior means is a martingale). *)
Definition mean_calibrated {D O : Type} (Sum : (O -> R) -> R -> Prop) (Fa Fb : (R -> Prop) -> Prop) (dens : D -> R -> R)
  (update : D -> O -> res D) (predict : D -> O -> res R) (ok : D -> Prop) (obs : O -> Prop) : Prop :=
  forall d, ok d -> exists m (w : O -> R), is_mean Fa Fb (dens d) m /\
    (forall o, obs o -> exists p d' m', predict d o = Ok p /\ update d o = Ok d' /\
       is_mean Fa Fb (dens d') m' /\ w o = p * m') /\
    Sum w m.

(** The variances of the posteriors, weighted in the same way, add up to the
    variance of the prior times [factor], which is less than one. *)
Definition variance_averages {D O : Type} (Sum : (O -> R) -> R -> Prop) (Fa Fb : (R -> Prop) -> Prop) (dens : D -> R -> R)
  (update : D -> O -> res D) (predict : D -> O -> res R) (factor : D -> R) (ok : D -> Prop) (obs : O -> Prop) : Prop :=
  forall d, ok d -> 0 < factor d < 1 /\ exists v (w : O -> R), is_variance Fa Fb (dens d) v /\ 0 < v /\
    (forall o, obs o -> exists p d' v', predict d o = Ok p /\ update d o = Ok d' /\
       is_variance Fa Fb (dens d') v' /\ w o = p * v') /\
    Sum w (factor d * v).

(** They add up to less than the variance of the prior. *)
Definition variance_decreases {D O : Type} (Sum : (O -> R) -> R -> Prop) (Fa Fb : (R -> Prop) -> Prop) (dens : D -> R -> R)
  (update : D -> O -> res D) (predict : D -> O -> res R) (ok : D -> Prop) (obs : O -> Prop) : Prop :=
  forall d, ok d -> exists v v1 (w : O -> R), is_variance Fa Fb (dens d) v /\
    (forall o, obs o -> exists p d' v', predict d o = Ok p /\ update d o = Ok d' /\
       is_variance Fa Fb (dens d') v' /\ w o = p * v') /\
    Sum w v1 /\ v1 < v.
