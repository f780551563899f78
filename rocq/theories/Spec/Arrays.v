(** When a numpy array contains a given matrix, vector or number; what a matrix
    inversion routine must do. *)

From Coq Require Import Reals List.
From mathcomp Require Import all_ssreflect all_algebra.
From Verif Require Import Analysis.RField Model.Py Model.Dists Model.NdArray Model.MatrixModel Spec.Matrices.
Delimit Scope R_scope with Re.

Set Implicit Arguments.
Unset Strict Implicit.
Unset Printing Implicit Defensive.
Local Open Scope ring_scope.

(** An m by n array with the entries of [M] *)
Definition holds_mx m n (a : nd R) (M : 'M[R]_(m, n)) : Prop :=
  nd_shape a = [:: m; n] /\ forall i j, nd_entry a [:: nat_of_ord i; nat_of_ord j] = M i j.

(** Vectors are stored flat (shape [n]) or as columns (shape [n; 1]). *)
Inductive layout := Flat | Column.
Definition holds_vec n (l : layout) (a : nd R) (v : 'cV[R]_n) : Prop :=
  match l with
  | Flat => nd_shape a = [:: n] /\ forall i, nd_entry a [:: nat_of_ord i] = v i 0
  | Column => holds_mx a v
  end.
Definition holds_row n (l : layout) (a : nd R) (v : 'rV[R]_n) : Prop :=
  match l with
  | Flat => nd_shape a = [:: n] /\ forall i, nd_entry a [:: nat_of_ord i] = v 0 i
  | Column => holds_mx a v
  end.

(** A Python number, or a 1 by 1 array *)
Definition holds_num (a : nd R) (x : R) : Prop :=
  (nd_shape a = [::] /\ nd_entry a [::] = x) \/
  (nd_shape a = [:: 1%N; 1%N] /\ nd_entry a [:: 0%N; 0%N] = x).

(** A Python number *)
Definition holds_sc (a : nd R) (x : R) : Prop := nd_shape a = [::] /\ nd_entry a [::] = x.

(** [inv] inverts every positive definite matrix. *)
Definition inverts (inv : nd R -> res (nd R)) : Prop :=
  forall n (a : nd R) (M : 'M[R]_n), holds_mx a M -> posdef M ->
    exists b, inv a = Ok b /\ holds_mx b (invmx M).

(** [eye] makes identity matrices. *)
Definition makes_eye (eye : nat -> res (nd R)) : Prop :=
  forall n, exists a, eye n = Ok a /\ holds_mx a (1%:M : 'M[R]_n).

(** A NormalInverseGamma object with matrix parameter *)
Definition holds_nig n (l : layout) (d : NormalInverseGamma (nd R) (nd R) (nd R))
  (mu : 'cV[R]_n) (delta_inverse : 'M[R]_n) (a b : R) : Prop :=
  holds_vec l (NormalInverseGamma_mu d) mu /\
  holds_num (NormalInverseGamma_alpha d) a /\ holds_num (NormalInverseGamma_beta d) b /\
  NormalInverseGamma_nu d = None /\
  exists m, NormalInverseGamma_delta_inverse d = Some m /\ holds_mx m delta_inverse.

(** Regression data: a covariate vector and a response per observation; the
    arrays have one row per observation. *)
Definition obs n : Type := ('cV[R]_n * R)%type.
Definition design n (data : list (obs n)) : 'M[R]_(length data, n) :=
  \matrix_(i, j) (List.nth i data (0, 0)).1 j 0.
Definition response n (data : list (obs n)) : 'cV[R]_(length data) :=
  \matrix_(i, j) (List.nth i data (0, 0)).2.
Definition holds_data n (l : layout) (data : list (obs n)) (arrays : nd R * nd R) : Prop :=
  holds_mx arrays.1 (design data) /\ holds_vec l arrays.2 (response data).

(** Observed vectors, one row each *)
Definition rows n (l : list 'cV[R]_n) : 'M[R]_(length l, n) :=
  \matrix_(i, j) (List.nth i l 0) j 0.

(** The pair (n, x_bar) summarises the sample: n is its size, x_bar its mean (any
    vector for the empty sample). *)
Definition holds_sample n (l : layout) (xs : list 'cV[R]_n) (arrays : nd R * nd R) : Prop :=
  holds_sc arrays.1 (INR (length xs)) /\
  exists x_bar : 'cV[R]_n, holds_vec l arrays.2 x_bar /\ INR (length xs) *: x_bar = \sum_(x <- xs) x.

(** The parameters of a MultivariateNormal object, read off its scipy distribution *)
Definition holds_mvn n (l : layout) (d : MultivariateNormal (nd R)) (mu : 'cV[R]_n) (cov : 'M[R]_n) : Prop :=
  exists mean c, MultivariateNormal_dist d = S_multivariate_normal mean c /\
    holds_vec l mean mu /\ holds_mx c cov.
(** ... and of a MultivariateStudentT object *)
Definition holds_mvt n (l : layout) (d : MultivariateStudentT (nd R)) (mu : 'cV[R]_n) (S : 'M[R]_n) (nu : R) : Prop :=
  exists loc shape df, MultivariateStudentT_dist d = S_multivariate_t loc shape df /\
    holds_vec l loc mu /\ holds_mx shape S /\ holds_num df nu.

(** ... of an InverseWishart object *)
Definition holds_iw n (d : InverseWishart (nd R)) (nu : R) (psi : 'M[R]_n) : Prop :=
  exists df scale, InverseWishart_dist d = S_invwishart df scale /\ holds_sc df nu /\ holds_mx scale psi.
(** ... and of a NormalInverseWishart object (the mean is stored flat) *)
Definition holds_niw n (d : NormalInverseWishart (nd R)) (mu : 'cV[R]_n) (kappa nu : R) (psi : 'M[R]_n) : Prop :=
  holds_vec Flat (NormalInverseWishart_mu d) mu /\ holds_sc (NormalInverseWishart_kappa d) kappa /\
  holds_iw (NormalInverseWishart_inverse_wishart d) nu psi.

(** [outer] computes outer products of flat vectors. *)
Definition makes_outer (outer : nd R -> nd R -> res (nd R)) : Prop :=
  forall n a b (u v : 'cV[R]_n), holds_vec Flat a u -> holds_vec Flat b v ->
    exists c, outer a b = Ok c /\ holds_mx c (u *m v^T).
