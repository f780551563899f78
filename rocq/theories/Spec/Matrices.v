(** Vectors and matrices of reals (mathcomp), integrals over R^n, and the
    multivariate densities scipy documents. *)

From Coq Require Import Reals.
From Coquelicot Require Import Coquelicot.
From mathcomp Require Import all_ssreflect all_algebra.
From Verif Require Import Analysis.RField Spec.Special Model.ScipyDist Spec.Densities.
Delimit Scope R_scope with Re.

Set Implicit Arguments.
Unset Strict Implicit.
Unset Printing Implicit Defensive.
Local Open Scope ring_scope.

(** The number v^T A v *)
Definition quad n (A : 'M[R]_n) (v : 'cV[R]_n) : R := (v^T *m A *m v) 0 0.

(** Symmetric positive definite *)
Definition posdef n (A : 'M[R]_n) : Prop :=
  A^T = A /\ forall v : 'cV[R]_n, v <> 0 -> Rlt 0%Re (quad A v).

(** [l] is the integral of [f] over R^n: iterated improper integrals, the last
    coordinate innermost. *)
Fixpoint is_vec_int (n : nat) : ('cV[R]_n -> R) -> R -> Prop :=
  match n return ('cV[R]_n -> R) -> R -> Prop with
  | O => fun f l => l = f 0
  | S n' => fun f l => exists g : R -> R,
      (forall x : R, @is_vec_int n' (fun v => f (col_mx x%:M v)) (g x)) /\
      is_RInt_gen g (Rbar_locally m_infty) (Rbar_locally p_infty) l
  end.

(** scipy.stats.multivariate_normal(mean, cov):
    exp(-1/2 (x - mean)^T cov^-1 (x - mean)) / sqrt((2 pi)^n det cov) *)
Definition mvn_pdf n (mu : 'cV[R]_n) (cov : 'M[R]_n) (x : 'cV[R]_n) : R :=
  (exp (- (quad (invmx cov) (x - mu)%R / 2)) / sqrt ((2 * PI) ^ n * \det cov))%Re.

(** scipy.stats.multivariate_t(loc, shape, df):
    Gamma((df + n)/2) / (Gamma(df/2) (df pi)^(n/2) sqrt(det shape))
    (1 + (x - loc)^T shape^-1 (x - loc) / df)^(-(df + n)/2) *)
Definition mvt_pdf n (mu : 'cV[R]_n) (shape : 'M[R]_n) (df : R) (x : 'cV[R]_n) : R :=
  (Gamma_fun ((df + INR n) / 2) / (Gamma_fun (df / 2) * sqrt ((df * PI) ^ n * \det shape))
   * Rpower (1 + quad (invmx shape) (x - mu)%R / df) (- ((df + INR n) / 2)))%Re.

(** Bayes' rule for a parameter vector *)
Definition vec_posterior n (prior lik post : 'cV[R]_n -> R) : Prop :=
  exists evidence : R, Rlt 0%Re evidence /\
    is_vec_int (fun t => (prior t * lik t)%Re) evidence /\
    forall t, post t = (prior t * lik t / evidence)%Re.
Definition vec_marginal n (dens lik : 'cV[R]_n -> R) (pred : R) : Prop :=
  is_vec_int (fun t => (lik t * dens t)%Re) pred.

(** ... and for a vector and a positive number *)
Definition vec_posterior2 n (prior lik post : 'cV[R]_n -> R -> R) : Prop :=
  exists (inner : R -> R) (evidence : R), Rlt 0%Re evidence /\
    (forall v, Rlt 0%Re v -> is_vec_int (fun t => (prior t v * lik t v)%Re) (inner v)) /\
    is_RInt_gen inner (at_right 0%Re) (Rbar_locally p_infty) evidence /\
    forall t v, Rlt 0%Re v -> post t v = (prior t v * lik t v / evidence)%Re.
Definition vec_marginal2 n (dens lik : 'cV[R]_n -> R -> R) (pred : R) : Prop :=
  exists inner : R -> R,
    (forall v, Rlt 0%Re v -> is_vec_int (fun t => (lik t v * dens t v)%Re) (inner v)) /\
    is_RInt_gen inner (at_right 0%Re) (Rbar_locally p_infty) pred.

(** Normal-inverse-gamma for a vector of coefficients: v ~ InverseGamma(a, b),
    t | v ~ N(mu, v delta_inverse). *)
Definition mv_nig_pdf n (mu : 'cV[R]_n) (delta_inverse : 'M[R]_n) (a b : R) (t : 'cV[R]_n) (v : R) : R :=
  (mvn_pdf mu (v *: delta_inverse)%R t * pdf (S_invgamma_scale a b) v)%Re.

(** Linear regression: y_i ~ N((X t)_i, v), independent *)
Definition regression_lik N n (X : 'M[R]_(N, n)) (y : 'cV[R]_N) (t : 'cV[R]_n) (v : R) : R :=
  \prod_(i < N) pdf (S_norm ((X *m t) i 0) (sqrt v)) (y i 0).

(** Independent observations of N(t, cov) *)
Definition mvn_lik n (cov : 'M[R]_n) (xs : list 'cV[R]_n) (t : 'cV[R]_n) : R :=
  \prod_(x <- xs) mvn_pdf t cov x.
