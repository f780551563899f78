(** Random covariance matrices: integrals over the cone of positive definite
    matrices, the inverse Wishart density scipy documents, and Bayes' rule for a
    covariance matrix, with or without a mean vector. *)

From Coq Require Import Reals.
From Coquelicot Require Import Coquelicot.
From mathcomp Require Import all_ssreflect all_algebra.
From Verif Require Import Analysis.RField Spec.Special Spec.Matrices.
Delimit Scope R_scope with Re.

Set Implicit Arguments.
Unset Strict Implicit.
Unset Printing Implicit Defensive.
Local Open Scope ring_scope.

(** [l] is the integral of [f] over the positive definite n x n matrices, with
    respect to the Lebesgue measure of the entries on and below the diagonal.
    A symmetric matrix with first row (a, b^T) and lower right block C is positive
    definite exactly when C is and a > b^T C^-1 b (Posdef.posdef_block_iff), so the
    integral is iterated: a over (b^T C^-1 b, oo) innermost, then b over R^n, then C
    over the cone of the next smaller size. *)
Fixpoint is_cone_int (n : nat) : ('M[R]_n -> R) -> R -> Prop :=
  match n return ('M[R]_n -> R) -> R -> Prop with
  | O => fun f l => l = f 0
  | S n' => fun f l => exists g : 'M[R]_n' -> R,
      (forall C : 'M[R]_n', posdef C -> exists h : 'cV[R]_n' -> R,
         (forall b : 'cV[R]_n',
            is_RInt_gen (fun a : R => f (block_mx a%:M b^T b C))
              (at_right (quad (invmx C) b)) (Rbar_locally p_infty) (h b)) /\
         is_vec_int h (g C)) /\
      is_cone_int g l
  end.

(** The multivariate gamma function of dimension n:
    pi^(n (n - 1) / 4) prod_(j = 1..n) Gamma(a + (1 - j) / 2) *)
Definition multigamma (n : nat) (a : R) : R :=
  (Rpower PI (INR (n * (n - 1)) / 4) * \prod_(j < n) Gamma_fun (a - INR j / 2)%Re)%Re.

(** scipy.stats.invwishart(df, scale):
    |scale|^(df/2) / (2^(df n/2) Gamma_n(df/2)) |S|^(-(df + n + 1)/2) exp(-tr(scale S^-1)/2) *)
Definition iw_pdf n (df : R) (scale S : 'M[R]_n) : R :=
  (Rpower (\det scale) (df / 2) / (Rpower 2 (df * INR n / 2) * multigamma n (df / 2))
   * Rpower (\det S) (- ((df + INR n + 1) / 2)) * exp (- (\tr (scale *m invmx S)%R / 2)))%Re.

(** Normal-inverse-Wishart: S ~ InverseWishart(nu, psi), t | S ~ N(mu, S / kappa) *)
Definition niw_pdf n (mu : 'cV[R]_n) (kappa nu : R) (psi : 'M[R]_n) (t : 'cV[R]_n) (S : 'M[R]_n) : R :=
  (mvn_pdf mu ((/ kappa)%Re *: S)%R t * iw_pdf nu psi S)%Re.

(** Bayes' rule for a covariance matrix *)
Definition cone_posterior n (prior lik post : 'M[R]_n -> R) : Prop :=
  exists evidence : R, Rlt 0%Re evidence /\
    is_cone_int (fun S => (prior S * lik S)%Re) evidence /\
    forall S, posdef S -> post S = (prior S * lik S / evidence)%Re.

(** ... and for a mean vector and a covariance matrix *)
Definition cone_posterior2 n (prior lik post : 'cV[R]_n -> 'M[R]_n -> R) : Prop :=
  exists (inner : 'M[R]_n -> R) (evidence : R), Rlt 0%Re evidence /\
    (forall S, posdef S -> is_vec_int (fun t => (prior t S * lik t S)%Re) (inner S)) /\
    is_cone_int inner evidence /\
    forall t S, posdef S -> post t S = (prior t S * lik t S / evidence)%Re.
Definition cone_marginal2 n (dens lik : 'cV[R]_n -> 'M[R]_n -> R) (pred : R) : Prop :=
  exists inner : 'M[R]_n -> R,
    (forall S, posdef S -> is_vec_int (fun t => (lik t S * dens t S)%Re) (inner S)) /\
    is_cone_int inner pred.

(** Independent observations of N(t, S) with t and S unknown *)
Definition mvn_lik2 n (xs : list 'cV[R]_n) (t : 'cV[R]_n) (S : 'M[R]_n) : R := mvn_lik S xs t.
