(** What it means for posteriors to settle on a parameter value as data accumulates. *)

From Coq Require Import Reals.
From Coquelicot Require Import Coquelicot.
From Verif Require Import Spec.Joint.
Open Scope R_scope.

(** [h] is continuous at [t0] along the points of [dom] ([t0] may be an end of [dom]). *)
Definition continuous_along (dom : R -> Prop) (h : R -> R) (t0 : R) : Prop :=
  forall eps, 0 < eps -> exists delta, 0 < delta /\
  forall t, dom t -> Rabs (t - t0) < delta -> Rabs (h t - h t0) < eps.

(** The densities [f 0], [f 1], ... on the interval (Fa, Fb), whose points are [dom], concentrate at [t0]:
    the expectation of every bounded function that is continuous at [t0] tends to its value at [t0]. *)
Definition concentrates (Fa Fb : (R -> Prop) -> Prop) (dom : R -> Prop) (f : nat -> R -> R) (t0 : R) : Prop :=
  forall (h : R -> R) (M : R) (expectation : nat -> R),
  (forall t, dom t -> Rabs (h t) <= M) -> continuous_along dom h t0 ->
  (forall N, is_RInt_gen (fun t => h t * f N t) Fa Fb (expectation N)) ->
  is_lim_seq expectation (h t0).

(** The intervals on which the parameters live. *)
Definition unit_interval (t : R) : Prop := 0 < t < 1.
Definition positive (t : R) : Prop := 0 < t.
Definition any_real (t : R) : Prop := True.

(** The same for two parameters, the first any real and the second positive, with expectations as iterated integrals. *)
Definition concentrates2 (f : nat -> R -> R -> R) (m0 v0 : R) : Prop :=
  forall (h : R -> R -> R) (M : R) (expectation : nat -> R),
  (forall m v, 0 < v -> Rabs (h m v) <= M) ->
  (forall eps, 0 < eps -> exists delta, 0 < delta /\
     forall m v, 0 < v -> Rabs (m - m0) < delta -> Rabs (v - v0) < delta -> Rabs (h m v - h m0 v0) < eps) ->
  (forall N, marginal2 (Rbar_locally m_infty) (Rbar_locally p_infty) (at_right 0) (Rbar_locally p_infty) positive
     (f N) h (expectation N)) ->
  is_lim_seq expectation (h m0 v0).
