(** Means and variances of the coordinates of a point of the simplex. *)

From Coq Require Import Reals.
From Coquelicot Require Import Coquelicot.
From Verif Require Import Model.Py Model.NdArray Spec.Bayes Spec.Simplex.
From Coq Require Import List.
Import ListNotations.
Open Scope R_scope.

(** [m] is the mean of coordinate [i] under the density [f], [v] its variance. *)
Definition is_simplex_mean (n i : nat) (f : list R -> R) (m : R) : Prop :=
  is_simplex_int n 1 (fun p => nth i p 0 * f p) m.
Definition is_simplex_variance (n i : nat) (f : list R -> R) (v : R) : Prop :=
  exists m, is_simplex_mean n i f m /\ is_simplex_int n 1 (fun p => (nth i p 0 - m) ^ 2 * f p) v.

(** The numbers of a flat array and of row [k] of a table *)
Definition flat (K : nat) (a : nd R) : list R := map (fun i => at_index [i] a) (seq 0 K).
Definition row (K k : nat) (a : nd R) : list R := map (fun i => at_index [k; i] a) (seq 0 K).

(** The posterior means of every coordinate, weighted by the predicted
    probabilities of the observations, add up to the mean of the prior. *)
Definition simplex_mean_calibrated {D O : Type} (n : nat) (Sum : (O -> R) -> R -> Prop) (dens : D -> list R -> R)
  (update : D -> O -> res D) (predict : D -> O -> res R) (ok : D -> Prop) (obs : O -> Prop) : Prop :=
  forall d i, ok d -> (i <= n)%nat -> exists m (w : O -> R), is_simplex_mean n i (dens d) m /\
    (forall o, obs o -> exists p d' m', predict d o = Ok p /\ update d o = Ok d' /\
       is_simplex_mean n i (dens d') m' /\ w o = p * m') /\
    Sum w m.
