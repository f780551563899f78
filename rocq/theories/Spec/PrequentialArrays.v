(** Reading parameters off arrays, and integrals over the parameters of the
    array models. *)

From Coq Require Import Reals List.
From Coquelicot Require Import Coquelicot.
From mathcomp Require Import all_ssreflect all_algebra.
From Verif Require Import Analysis.RField Model.Py Model.Dists Model.ScipyDist Model.NdArray Model.MatrixModel
  Spec.Densities Spec.Matrices Spec.Arrays Spec.Wishart.
Delimit Scope R_scope with Re.

Set Implicit Arguments.
Unset Strict Implicit.
Unset Printing Implicit Defensive.
Local Open Scope ring_scope.

(** The matrix, the vector and the number in an array *)
Definition mx_of m n (a : nd R) : 'M[R]_(m, n) := \matrix_(i, j) nd_entry a [:: nat_of_ord i; nat_of_ord j].
Definition vec_of (l : layout) n (a : nd R) : 'cV[R]_n :=
  \matrix_(i, j) nd_entry a (match l with Flat => [:: nat_of_ord i] | Column => [:: nat_of_ord i; 0%N] end).
Definition num_of (a : nd R) : R := nd_entry a (match nd_shape a with [::] => [::] | _ => [:: 0%N; 0%N] end).

(** The density of the scipy distribution behind a MultivariateNormal and a MultivariateStudentT *)
Definition mv_pdf (l : layout) n (d : mv_dist (nd R)) (x : 'cV[R]_n) : R :=
  match d with
  | S_multivariate_normal mean cov => mvn_pdf (vec_of l n mean) (mx_of n n cov) x
  | S_multivariate_t loc shape df => mvt_pdf (vec_of l n loc) (mx_of n n shape) (num_of df) x
  | S_invwishart _ _ => 0
  end.

(** The joint densities a NormalInverseGamma with a matrix and a NormalInverseWishart stand for *)
Definition nig_pdf_of (l : layout) n (d : NormalInverseGamma (nd R) (nd R) (nd R)) (p : 'cV[R]_n * R) : R :=
  match NormalInverseGamma_delta_inverse d with
  | Some m => mv_nig_pdf (vec_of l n (NormalInverseGamma_mu d)) (mx_of n n m)
                (num_of (NormalInverseGamma_alpha d)) (num_of (NormalInverseGamma_beta d)) p.1 p.2
  | None => 0
  end.
Definition niw_pdf_of n (d : NormalInverseWishart (nd R)) (p : 'cV[R]_n * 'M[R]_n) : R :=
  match InverseWishart_dist (NormalInverseWishart_inverse_wishart d) with
  | S_invwishart df scale =>
      niw_pdf (vec_of Flat n (NormalInverseWishart_mu d)) (num_of (NormalInverseWishart_kappa d)) (num_of df) (mx_of n n scale) p.1 p.2
  | _ => 0
  end.

(** Integrals over a vector and a positive number, over a vector and a covariance matrix *)
Definition over_vec_pos n (f : 'cV[R]_n * R -> R) (l : R) : Prop :=
  exists inner : R -> R, (forall v, Rlt 0%Re v -> is_vec_int (fun t => f (t, v)) (inner v)) /\
    is_RInt_gen inner (at_right 0%Re) (Rbar_locally p_infty) l.
Definition over_vec_cone n (f : 'cV[R]_n * 'M[R]_n -> R) (l : R) : Prop :=
  exists inner : 'M[R]_n -> R, (forall S, posdef S -> is_vec_int (fun t => f (t, S)) (inner S)) /\
    is_cone_int inner l.

(** One response y to the covariates x: N(x^T t, v) *)
Definition response_lik n (p : 'cV[R]_n * R) (o : obs n) : R := pdf (S_norm ((o.1^T *m p.1) 0 0) (sqrt p.2)) o.2.

(** Usable priors *)
Definition mvn_ok n (l : layout) (d : MultivariateNormal (nd R)) : Prop :=
  exists (mu : 'cV[R]_n) (cov : 'M[R]_n), holds_mvn l d mu cov /\ posdef cov.
Definition nig_ok n (l : layout) (d : NormalInverseGamma (nd R) (nd R) (nd R)) : Prop :=
  exists (mu : 'cV[R]_n) (Di : 'M[R]_n) a b, holds_nig l d mu Di a b /\ posdef Di /\ Rlt 0%Re a /\ Rlt 0%Re b.
Definition niw_ok n (d : NormalInverseWishart (nd R)) : Prop :=
  exists (mu : 'cV[R]_n) k nu (psi : 'M[R]_n), holds_niw d mu k nu psi /\ posdef psi /\ Rlt (INR n - 1)%Re nu /\ Rlt 0%Re k.
