(** Marginals of multivariate normal and t distributions. *)

From Coq Require Import Reals List.
From Coquelicot Require Import Coquelicot.
From Verif Require Import Spec.Special.
From Coq Require Import List.
Import ListNotations.
Open Scope R_scope.

(** *** Two dimensions: the densities themselves

    scipy: multivariate_normal, exp(-q/2) / sqrt((2 pi)^2 det) and multivariate_t,
    Gamma((nu+2)/2) / (Gamma(nu/2) nu pi sqrt det) (1 + q/nu)^(-(nu+2)/2),
    q the quadratic form of the inverse of [[a, b], [b, c]]. *)
Definition det2 (a b c : R) : R := a * c - b ^ 2.
Definition quad2 (a b c u v : R) : R := (c * u ^ 2 - 2 * b * u * v + a * v ^ 2) / det2 a b c.
Definition normal2_pdf (m1 m2 a b c x y : R) : R :=
  exp (- quad2 a b c (x - m1) (y - m2) / 2) / sqrt ((2 * PI) ^ 2 * det2 a b c).
Definition t2_pdf (m1 m2 a b c nu x y : R) : R :=
  Gamma_fun ((nu + 2) / 2) / (Gamma_fun (nu / 2) * (nu * PI) * sqrt (det2 a b c))
  * Rpower (1 + quad2 a b c (x - m1) (y - m2) / nu) (- ((nu + 2) / 2)).
(** [f] is the density of the first coordinate of the density [g]. *)
Definition first_marginal (g : R -> R -> R) (f : R -> R) : Prop :=
  forall x, is_RInt_gen (fun y => g x y) (Rbar_locally m_infty) (Rbar_locally p_infty) (f x).
Definition second_marginal (g : R -> R -> R) (f : R -> R) : Prop := first_marginal (fun y x => g x y) f.

(** *** Any dimension: cumulant generating functions

    log E exp(sum_i t_i X_i) of a normal vector; it determines the distribution.
    A t vector is a normal vector with covariance (nu / w) sigma, mixed over a
    chi-square w that does not depend on sigma. *)
Definition sum_n (n : nat) (f : nat -> R) : R := fold_right Rplus 0 (map f (seq 0 n)).
Definition normal_cgf (n : nat) (mu : nat -> R) (cov : nat -> nat -> R) (t : nat -> R) : R :=
  sum_n n (fun i => t i * mu i) + / 2 * sum_n n (fun i => sum_n n (fun j => t i * cov i j * t j)).
Definition t_cgf_given (w : R) (n : nat) (mu : nat -> R) (sigma : nat -> nat -> R) (nu : R) (t : nat -> R) : R :=
  normal_cgf n mu (fun i j => nu / w * sigma i j) t.

(** The vector of the coordinates [l] of X is tested by the combination that
    gives coordinate [i] the total weight of the positions where [i] occurs in [l]. *)
Definition weight_of (l : list nat) (t : nat -> R) (i : nat) : R :=
  sum_n (length l) (fun j => if Nat.eqb (nth j l 0%nat) i then t j else 0).
