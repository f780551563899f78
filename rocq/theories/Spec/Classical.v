(** The quantities of classical statistics, and the density of one coordinate of a joint law. *)

From Coq Require Import Reals List.
From Coquelicot Require Import Coquelicot.
From Verif Require Import Spec.Bayes.
From Coq Require Import List.
Import ListNotations.
Open Scope R_scope.

Definition average (data : list R) : R := sumR data / INR (length data).
(** with the divisor n - 1 *)
Definition sample_variance (data : list R) : R :=
  sumR (map (fun x => (x - average data) ^ 2) data) / (INR (length data) - 1).

(** "Nothing is known": every mean alike, every order of magnitude of the variance (or of the
    precision) alike.  It has infinite total mass. *)
Definition flat (m v : R) : R := if Rlt_dec 0 v then / v else 0.

(** [dens] is the density of the first (second) coordinate of [joint]. *)
Definition first_alone (joint : R -> R -> R) (dens : R -> R) : Prop :=
  forall m, is_RInt_gen (fun v => joint m v) (at_right 0) (Rbar_locally p_infty) (dens m).
Definition second_alone (joint : R -> R -> R) (dens : R -> R) : Prop :=
  forall v, 0 < v -> is_RInt_gen (fun m => joint m v) (Rbar_locally m_infty) (Rbar_locally p_infty) (dens v).
