(** C83: what the matrix functions do with arguments of unexpected shape. *)

From Coq Require Import Reals ZArith Bool String.
From Verif Require Import Model.Num Model.Py Model.Dists Model.Models Model.Table Model.NdArray Model.MatrixModel.
From Verif Require Import Spec.ArrayShapes Proofs.ArrayShapes Proofs.RealInv.
From Coq Require Import List.
Import ListNotations.

(** C83: linear_regression with [N] observations of [n] covariates.  The response
    and the prior mean are each flat or a column.  When both are stored alike the
    posterior mean is stored like the prior mean; otherwise "the posterior mean"
    is an [n] by [n] array, and so is beta.  No exception tells. *)
Theorem C83_regression_layouts :
  forall (A : Type) (NA : Num A) (inv : nd A -> res (nd A)) (n N : nat) (y_column mu_column : bool)
    (X y mu delta_inverse alpha beta : nd A), keeps_shape inv ->
  nd_shape X = [N; n] -> nd_shape y = vec_shape y_column N -> nd_shape mu = vec_shape mu_column n ->
  nd_shape delta_inverse = [n; n] -> nd_shape alpha = [] -> nd_shape beta = [] ->
  returns_unless inv (linear_regression X y (mkNormalInverseGamma mu alpha beta (Some delta_inverse) None) inv) (fun post =>
    nd_shape (NormalInverseGamma_mu post) = (if Bool.eqb y_column mu_column then vec_shape mu_column n else [n; n]) /\
    nd_shape (NormalInverseGamma_alpha post) = [] /\
    nd_shape (NormalInverseGamma_beta post) =
      (if Bool.eqb y_column mu_column then if mu_column then [1; 1] else [] else [n; n]) /\
    exists D, NormalInverseGamma_delta_inverse post = Some D /\ nd_shape D = [n; n]).
Proof. exact @regression_shapes. Qed.
Print Assumptions C83_regression_layouts.

(** A column response and a flat prior mean: accepted, and the result is a matrix. *)
Definition ones (s : list nat) : nd R := mkNd s (fun _ => 1%R).
Theorem C83_regression_layouts_refuted :
  exists (X y mu delta_inverse : nd R), nd_shape X = [3; 2] /\ nd_shape y = [3; 1] /\ nd_shape mu = [2] /\
  nd_shape delta_inverse = [2; 2] /\ exists post,
  linear_regression X y (mkNormalInverseGamma mu (scalar 1%R) (scalar 1%R) (Some delta_inverse) None) real_inv = Ok post /\
  nd_shape (NormalInverseGamma_mu post) = [2; 2] /\ nd_shape (NormalInverseGamma_beta post) = [2; 2].
Proof. exact regression_layouts_refuted. Qed.
Print Assumptions C83_regression_layouts_refuted.

(** C83: sizes.  A response or prior mean of the wrong length is rejected, and so is
    a prior for another number of coefficients ... *)
Theorem C83_regression_sizes :
  forall (A : Type) (NA : Num A) (inv : nd A -> res (nd A)) (N N' n m m' : nat)
    (X y mu delta_inverse alpha beta : nd A), keeps_shape inv ->
  nd_shape X = [N; n] -> nd_shape y = [N'] -> nd_shape mu = [m'] -> nd_shape delta_inverse = [m; m] ->
  N' <> N \/ m' <> m \/ (m <> n /\ m <> 1 /\ n <> 1) ->
  fails (linear_regression X y (mkNormalInverseGamma mu alpha beta (Some delta_inverse) None) inv).
Proof. exact @regression_mismatch. Qed.
Print Assumptions C83_regression_sizes.

(** ... except that a prior for one coefficient is taken for a prior for any
    number, and a prior for any number is taken with one covariate. *)
Theorem C83_regression_sizes_refuted :
  forall (A : Type) (NA : Num A) (inv : nd A -> res (nd A)) (N n m : nat)
    (X y mu delta_inverse alpha beta : nd A), keeps_shape inv ->
  nd_shape X = [N; n] -> nd_shape y = [N] -> nd_shape mu = [m] -> nd_shape delta_inverse = [m; m] ->
  nd_shape alpha = [] -> nd_shape beta = [] -> m = 1 \/ n = 1 ->
  returns_unless inv (linear_regression X y (mkNormalInverseGamma mu alpha beta (Some delta_inverse) None) inv) (fun post =>
    nd_shape (NormalInverseGamma_mu post) = [if Nat.eqb m 1 then n else m] /\
    nd_shape (NormalInverseGamma_alpha post) = [] /\ nd_shape (NormalInverseGamma_beta post) = []).
Proof. exact @regression_accepted. Qed.
Print Assumptions C83_regression_sizes_refuted.

(** C83: one covariate stored flat.  The posterior is computed, but no prediction
    from it for a flat covariate of length other than 1. *)
Theorem C83_regression_flat :
  forall (A : Type) (NA : Num A) (inv : nd A -> res (nd A)) (N : nat)
    (X y mu delta_inverse alpha beta : nd A), keeps_shape inv ->
  nd_shape X = [N] -> nd_shape y = [N] -> nd_shape mu = [1] -> nd_shape delta_inverse = [1; 1] ->
  nd_shape alpha = [] -> nd_shape beta = [] ->
  returns_unless inv (linear_regression X y (mkNormalInverseGamma mu alpha beta (Some delta_inverse) None) inv) (fun post =>
    nd_shape (NormalInverseGamma_mu post) = [1] /\
    forall eye k (X' : nd A), k <> 1 -> nd_shape X' = [k] -> fails (linear_regression_predictive post X' eye)).
Proof. exact @regression_flat. Qed.
Print Assumptions C83_regression_flat.

(** C83: the mean of a multivariate normal with known covariance or precision *)
Theorem C83_known_covariance_layouts :
  forall (A : Type) (NA : Num A) (inv : nd A -> res (nd A)) (p : nat) (x_column mu_column : bool)
    (n x_bar cov mu prior_cov : nd A), keeps_shape inv ->
  nd_shape n = [] -> nd_shape x_bar = vec_shape x_column p -> nd_shape cov = [p; p] ->
  nd_shape mu = vec_shape mu_column p -> nd_shape prior_cov = [p; p] ->
  returns_unless inv
    (multivariate_normal_known_covariance inv n x_bar cov (mkMultivariateNormal mu prior_cov) inv) (fun post =>
    nd_shape (MultivariateNormal_mu post) = (if Bool.eqb x_column mu_column then vec_shape mu_column p else [p; p]) /\
    nd_shape (MultivariateNormal_cov post) = [p; p]).
Proof. exact @known_covariance_post_shapes. Qed.
Print Assumptions C83_known_covariance_layouts.

Theorem C83_known_precision_layouts :
  forall (A : Type) (NA : Num A) (inv : nd A -> res (nd A)) (p : nat) (x_column mu_column : bool)
    (n x_bar precision mu prior_cov : nd A), keeps_shape inv ->
  nd_shape n = [] -> nd_shape x_bar = vec_shape x_column p -> nd_shape precision = [p; p] ->
  nd_shape mu = vec_shape mu_column p -> nd_shape prior_cov = [p; p] ->
  returns_unless inv
    (multivariate_normal_known_precision inv n x_bar precision (mkMultivariateNormal mu prior_cov) inv) (fun post =>
    nd_shape (MultivariateNormal_mu post) = (if Bool.eqb x_column mu_column then vec_shape mu_column p else [p; p]) /\
    nd_shape (MultivariateNormal_cov post) = [p; p]).
Proof. exact @known_precision_post_shapes. Qed.
Print Assumptions C83_known_precision_layouts.

(** C83: multivariate_normal_known_mean with the mean stored as a column returns
    when the numbers of observations and of dimensions agree or one of them is 1,
    and raises otherwise. *)
Theorem C83_known_mean_column_refuted :
  forall (A : Type) (NA : Num A) (N p : nat) (X mu nu psi : nd A),
  nd_shape X = [N; p] -> nd_shape mu = [p; 1] -> nd_shape nu = [] -> nd_shape psi = [p; p] ->
  (N = p \/ N = 1 \/ p = 1 -> exists post, multivariate_normal_known_mean X mu (mkInverseWishart nu psi) = Ok post /\
     nd_shape (InverseWishart_psi post) = [p; p]) /\
  (N <> p -> N <> 1 -> p <> 1 -> fails (multivariate_normal_known_mean X mu (mkInverseWishart nu psi))).
Proof. exact @known_mean_column. Qed.
Print Assumptions C83_known_mean_column_refuted.

(** C83: a single observation given as a flat vector is counted as [p]
    observations, and its squared distance from the mean is added everywhere. *)
Theorem C83_known_mean_single_refuted :
  forall (A : Type) (NA : Num A) (p : nat) (X mu nu psi : nd A),
  nd_shape X = [p] -> nd_shape mu = [p] -> nd_shape nu = [] -> nd_shape psi = [p; p] ->
  exists post, multivariate_normal_known_mean X mu (mkInverseWishart nu psi) = Ok post /\
    nd_entry (InverseWishart_nu post) [] = nadd (nd_entry nu []) (nlit (Z.of_nat p)) /\
    nd_shape (InverseWishart_psi post) = [p; p] /\
    forall i j, (i < p)%nat -> (j < p)%nat -> nd_entry (InverseWishart_psi post) [i; j] =
      nadd (nd_entry psi [i; j])
           (nsum p (fun t => nmul (nsub (nd_entry X [t]) (nd_entry mu [t])) (nsub (nd_entry X [t]) (nd_entry mu [t])))).
Proof. exact @known_mean_flat. Qed.
Print Assumptions C83_known_mean_single_refuted.

Theorem C83_multivariate_normal_single_refuted :
  forall (A : Type) (NA : Num A) (p : nat) (X mu kappa nu psi : nd A), (0 < p)%nat ->
  nd_shape X = [p] -> nd_shape mu = [p] -> nd_shape kappa = [] -> nd_shape nu = [] -> nd_shape psi = [p; p] ->
  exists post, multivariate_normal X (mkNormalInverseWishart mu kappa nu psi) np_outer = Ok post /\
    nd_shape (NormalInverseWishart_mu post) = [p] /\ nd_shape (NormalInverseWishart_psi post) = [p; p] /\
    nd_entry (NormalInverseWishart_kappa post) [] = nadd (nd_entry kappa []) (nlit (Z.of_nat p)) /\
    nd_entry (NormalInverseWishart_nu post) [] = nadd (nd_entry nu []) (nlit (Z.of_nat p)) /\
    forall i, (i < p)%nat -> nd_entry (NormalInverseWishart_mu post) [i] =
      ndiv (nadd (nmul (nd_entry mu [i]) (nd_entry kappa []))
                 (nmul (nlit (Z.of_nat p)) (ndiv (nsum p (fun t => nd_entry X [t])) (nlit (Z.of_nat p)))))
           (nadd (nd_entry kappa []) (nlit (Z.of_nat p))).
Proof. exact @multivariate_normal_flat. Qed.
Print Assumptions C83_multivariate_normal_single_refuted.

(** C83: multivariate_normal rejects a prior mean stored as a column. *)
Theorem C83_multivariate_normal_column :
  forall (A : Type) (NA : Num A) (N p : nat) (X mu kappa nu psi : nd A), (1 < p)%nat ->
  nd_shape X = [N; p] -> nd_shape mu = [p; 1] -> nd_shape kappa = [] -> nd_shape nu = [] -> nd_shape psi = [p; p] ->
  fails (multivariate_normal X (mkNormalInverseWishart mu kappa nu psi) np_outer).
Proof. exact @multivariate_normal_column. Qed.
Print Assumptions C83_multivariate_normal_column.

(** The hypotheses can be met: real matrix inversion keeps shapes, and with it the
    calls return. *)
Example C83_case : keeps_shape real_inv /\
  (forall n (a : nd R), nd_shape a = [n; n] -> exists b, real_inv a = Ok b) /\
  nd_shape (ones [3; 2]) = [3; 2] /\ nd_shape (ones [3; 1]) = vec_shape true 3 /\ nd_shape (ones [2]) = vec_shape false 2.
Proof. split; [exact real_inv_keeps_shape|]. split; [exact real_inv_square|]. repeat split. Qed.

(** C83: np.outer, the default of multivariate_normal's [outer], takes arrays of any shape and
    multiplies their entries, each written out row by row. *)
Theorem C83_np_outer : forall (A : Type) (NA : Num A) (a b : nd A), exists o, np_outer a b = Ok o /\
  nd_shape o = [fold_right Nat.mul 1%nat (nd_shape a); fold_right Nat.mul 1%nat (nd_shape b)] /\
  forall i j, index_of (nd_shape a) i -> index_of (nd_shape b) j ->
    nd_entry o [place (nd_shape a) i; place (nd_shape b) j] = nmul (nd_entry a i) (nd_entry b j).
Proof. exact @outer_any_shape. Qed.

(** the entry in row 1, column 2 of a 2 by 3 array is the last of six *)
Example C83_np_outer_case : index_of [2; 3] [1; 2] /\ place [2; 3] [1; 2] = 5%nat /\ place [2; 3] [1; 0] = 3%nat.
Proof. split; [|split; reflexivity]. repeat constructor. Qed.
Print Assumptions C83_np_outer.
