(** C82: total mass, means and covariances of the vector and matrix distributions,
    of the predictives, and of the posteriors on average. *)

From Coq Require Import Reals ZArith Lra List.
From Coquelicot Require Import Coquelicot.
From mathcomp Require Import all_ssreflect all_algebra.
From Verif Require Import Model.Num Model.Py Model.Dists Model.ScipyDist Model.NdArray Model.MatrixModel.
From Verif Require Import Spec.Densities.
From Verif Require Import Analysis.RField Spec.Matrices Spec.Wishart Spec.Arrays Spec.PrequentialArrays Spec.VectorMoments Analysis.Posdef
  Proofs.Arrays Proofs.LinReg Proofs.MvNormal Proofs.Wishart Proofs.PrequentialArrays Proofs.VectorMoments.
Delimit Scope R_scope with Re.

Set Implicit Arguments.
Unset Strict Implicit.
Unset Printing Implicit Defensive.
Local Open Scope ring_scope.

(** C82: a MultivariateNormal has total mass one, and its mean and covariance are its parameters. *)
Theorem C82_MultivariateNormal :
  forall n l d (mu : 'cV[R]_n) cov,
  holds_mvn l d mu cov -> posdef cov ->
  let f := mv_pdf l (n := n) (MultivariateNormal_dist d) in is_vec_density f /\ is_vec_mean f mu /\ is_vec_cov f cov.
Proof. exact MultivariateNormal_moments. Qed.

Example C82_MultivariateNormal_case : holds_mvn Flat ex_prior (0 : 'cV[R]_2) ex_cov /\ posdef ex_cov.
Proof. split; [exact: ex_prior_holds | exact: posdef_1J]. Qed.
Print Assumptions C82_MultivariateNormal.

(** C82: a MultivariateStudentT has total mass one; its mean is [mu] above one degree of
    freedom, its covariance [nu / (nu - 2) sigma] above two. *)
Theorem C82_MultivariateStudentT :
  forall n l d (mu : 'cV[R]_n) S nu,
  holds_mvt l d mu S nu -> posdef S -> (0 < nu)%Re ->
  let f := mv_pdf l (n := n) (MultivariateStudentT_dist d) in
  is_vec_density f /\ ((1 < nu)%Re -> is_vec_mean f mu) /\ ((2 < nu)%Re -> is_vec_cov f ((nu / (nu - 2))%Re *: S)).
Proof. exact MultivariateStudentT_moments. Qed.

Example C82_MultivariateStudentT_case :
  holds_mvt Flat (mkMultivariateStudentT (of_flat (const_mx 3%Re : 'cV[R]_2)) (of_mx ex_cov) (scalar 5%Re)) (const_mx 3%Re) ex_cov 5%Re /\
  posdef ex_cov /\ Rlt 2%Re 5%Re.
Proof.
  split; last by split; [exact: posdef_1J | lra]. eexists _, _, _. split; first reflexivity.
  split; first exact: of_flat_holds. split; first exact: of_mx_holds. by left.
Qed.
Print Assumptions C82_MultivariateStudentT.

(** C82: an InverseWishart has total mass one over the positive definite matrices, and the
    mean [psi / (nu - n - 1)] of every entry. *)
Theorem C82_InverseWishart :
  forall n d nu (psi : 'M[R]_n),
  holds_iw d nu psi -> posdef psi -> (INR n - 1 < nu)%Re ->
  is_cone_density (iw_pdf_of (n := n) d) /\
  ((INR n + 1 < nu)%Re -> is_cone_mean (iw_pdf_of (n := n) d) ((/ (nu - INR n - 1))%Re *: psi)).
Proof. exact InverseWishart_moments. Qed.

Example C82_InverseWishart_case :
  holds_iw (mkInverseWishart (scalar 4%Re) (of_mx ex_cov)) 4%Re ex_cov /\ posdef ex_cov /\ Rlt (INR 2 + 1)%Re 4%Re.
Proof.
  split; last by split; [exact: posdef_1J | rewrite /=; lra]. eexists _, _. split; first reflexivity. split; [by split | exact: of_mx_holds].
Qed.
Print Assumptions C82_InverseWishart.

(** C82: a NormalInverseGamma with a matrix has total mass one, its coefficients the mean
    [mu], its variance the mean [beta / (alpha - 1)]. *)
Theorem C82_NormalInverseGamma :
  forall n l d (mu : 'cV[R]_n) Di a b,
  holds_nig l d mu Di a b -> posdef Di -> (0 < a)%Re -> (0 < b)%Re ->
  is_vec_pos_density (nig_pdf_of l (n := n) d) /\
  ((1 < a)%Re -> is_vec_pos_mean (nig_pdf_of l (n := n) d) (mu, (b / (a - 1))%Re)).
Proof. exact NormalInverseGamma_moments. Qed.

Example C82_NormalInverseGamma_case :
  nig_mean_ok 2 Flat (mkNormalInverseGamma (of_flat (0 : 'cV[R]_2)) (scalar 2%Re) (scalar 1%Re) (Some (of_mx ex_cov)) None).
Proof.
  exists 0, ex_cov, 2%Re, 1%Re. split; last by split; [exact: posdef_1J | split; lra].
  split; first exact: of_flat_holds. split; first by left. split; first by left. split; first by [].
  eexists. split; first reflexivity. exact: of_mx_holds.
Qed.
Print Assumptions C82_NormalInverseGamma.

(** C82: a NormalInverseWishart has total mass one, its mean vector the mean [mu], its
    covariance matrix the mean [psi / (nu - n - 1)]. *)
Theorem C82_NormalInverseWishart :
  forall n d (mu : 'cV[R]_n) k nu psi,
  holds_niw d mu k nu psi -> posdef psi -> (INR n - 1 < nu)%Re -> (0 < k)%Re ->
  is_vec_cone_density (niw_pdf_of (n := n) d) /\
  ((INR n + 1 < nu)%Re -> is_vec_cone_mean (niw_pdf_of (n := n) d) (mu, (/ (nu - INR n - 1))%Re *: psi)).
Proof. exact NormalInverseWishart_moments. Qed.

Example C82_NormalInverseWishart_case :
  niw_mean_ok 2 (mkNormalInverseWishart (of_flat (const_mx 3%Re : 'cV[R]_2)) (scalar (/ 2)%Re) (scalar 4%Re) (of_mx ex_cov)).
Proof.
  exists (const_mx 3%Re), (/ 2)%Re, 4%Re, ex_cov. split; last by split; [exact: posdef_1J | split; rewrite /=; lra].
  split; first exact: of_flat_holds. split; first by split.
  eexists _, _. split; first reflexivity. split; [by split | exact: of_mx_holds].
Qed.
Print Assumptions C82_NormalInverseWishart.

(** C82: a new vector is predicted to have the mean of the prior, and the covariance of
    the prior plus the known one. *)
Theorem C82_known_covariance_predictive :
  forall n l d cov (mu0 : 'cV[R]_n) cov0 (covm : 'M[R]_n),
  holds_mvn l d mu0 cov0 -> holds_mx cov covm -> posdef cov0 -> posdef covm ->
  exists pred, multivariate_normal_known_covariance_predictive d cov = Ok pred /\
    let f := mv_pdf l (n := n) (MultivariateNormal_dist pred) in
    is_vec_density f /\ is_vec_mean f mu0 /\ is_vec_cov f (cov0 + covm).
Proof. exact known_covariance_predictive_moments. Qed.
Print Assumptions C82_known_covariance_predictive.

(** C82: ... plus the inverse of the known precision *)
Theorem C82_known_precision_predictive :
  forall n l d prec inv (mu0 : 'cV[R]_n) cov0 (P : 'M[R]_n),
  inverts inv -> holds_mvn l d mu0 cov0 -> holds_mx prec P -> posdef cov0 -> posdef P ->
  exists pred, multivariate_normal_known_precision_predictive d prec inv = Ok pred /\
    let f := mv_pdf l (n := n) (MultivariateNormal_dist pred) in
    is_vec_density f /\ is_vec_mean f mu0 /\ is_vec_cov f (cov0 + invmx P).
Proof. exact known_precision_predictive_moments. Qed.
Print Assumptions C82_known_precision_predictive.

(** C82: new responses are predicted to have the mean X mu, and the covariance of the noise
    and of the coefficients together. *)
Theorem C82_linear_regression_predictive :
  forall N n l eye X d (Xm : 'M[R]_(N, n)) mu Di a b,
  makes_eye eye -> holds_mx X Xm -> holds_nig l d mu Di a b -> posdef Di -> (0 < a)%Re -> (0 < b)%Re ->
  exists pred, linear_regression_predictive d X eye = Ok pred /\
    let f := mv_pdf l (n := N) (MultivariateStudentT_dist pred) in
    is_vec_density f /\ ((1 < 2 * a)%Re -> is_vec_mean f (Xm *m mu)) /\
    ((1 < a)%Re -> is_vec_cov f ((b / (a - 1))%Re *: (1%:M + Xm *m Di *m Xm^T))).
Proof. exact linear_regression_predictive_moments. Qed.
Print Assumptions C82_linear_regression_predictive.

(** C82: a new vector is predicted to have the mean of the mean vector, and (1 + 1/kappa)
    times the mean of the covariance matrix as its covariance. *)
Theorem C82_multivariate_normal_predictive :
  forall n d (mu : 'cV[R]_n) k nu psi,
  holds_niw d mu k nu psi ->
  posdef psi -> (INR n - 1 < nu)%Re -> (0 < k)%Re ->
  exists pred, multivariate_normal_predictive d = Ok pred /\
    let f := mv_pdf Flat (n := n) (MultivariateStudentT_dist pred) in
    is_vec_density f /\ ((INR n < nu)%Re -> is_vec_mean f mu) /\
    ((INR n + 1 < nu)%Re -> is_vec_cov f (((1 + / k) / (nu - INR n - 1))%Re *: psi)).
Proof. exact mvn_predictive_moments. Qed.
Print Assumptions C82_multivariate_normal_predictive.

(** C82: averaged over the observations that are predicted, the mean of the posterior is
    the mean of the prior. *)
Theorem C82_known_covariance_means :
  forall n (l : layout) np_inv inv one (arr : 'cV[R]_n -> nd R) cov (covm : 'M[R]_n),
  inverts np_inv -> inverts inv -> holds_sc one 1%Re -> (forall x, holds_vec l (arr x) x) -> holds_mx cov covm -> posdef covm ->
  means_calibrated (@vec_coords n) (@is_vec_int n) (fun d => is_vec_mean (mv_pdf l (n := n) (MultivariateNormal_dist d)))
    (fun d x => multivariate_normal_known_covariance np_inv one (arr x) cov d inv)
    (fun d x => let* p := multivariate_normal_known_covariance_predictive d cov in Ok (mv_pdf l (MultivariateNormal_dist p) x))
    (mvn_ok n l).
Proof. exact known_covariance_means. Qed.
Print Assumptions C82_known_covariance_means.

(** C82: the same for a known precision *)
Theorem C82_known_precision_means :
  forall n (l : layout) np_inv inv one (arr : 'cV[R]_n -> nd R) prec (P : 'M[R]_n),
  inverts np_inv -> inverts inv -> holds_sc one 1%Re -> (forall x, holds_vec l (arr x) x) -> holds_mx prec P -> posdef P ->
  means_calibrated (@vec_coords n) (@is_vec_int n) (fun d => is_vec_mean (mv_pdf l (n := n) (MultivariateNormal_dist d)))
    (fun d x => multivariate_normal_known_precision np_inv one (arr x) prec d inv)
    (fun d x => let* p := multivariate_normal_known_precision_predictive d prec inv in Ok (mv_pdf l (MultivariateNormal_dist p) x))
    (mvn_ok n l).
Proof. exact known_precision_means. Qed.
Print Assumptions C82_known_precision_means.

(** C82: coefficients and noise variance, for any number of responses at once *)
Theorem C82_linear_regression_means :
  forall N n (l : layout) inv eye X (Xm : 'M[R]_(N, n)) (arrY : 'cV[R]_N -> nd R),
  inverts inv -> makes_eye eye -> holds_mx X Xm -> (forall y, holds_vec l (arrY y) y) ->
  means_calibrated (@vec_pos_coords n) (@is_vec_int N) (fun d => is_vec_pos_mean (nig_pdf_of l (n := n) d))
    (fun d y => linear_regression X (arrY y) d inv)
    (fun d y => let* p := linear_regression_predictive d X eye in Ok (mv_pdf l (MultivariateStudentT_dist p) y))
    (@nig_mean_ok n l).
Proof. exact linear_regression_means. Qed.
Print Assumptions C82_linear_regression_means.

(** C82: mean vector and covariance matrix *)
Theorem C82_multivariate_normal_means :
  forall n outer (arr : 'cV[R]_n -> nd R),
  makes_outer outer -> (forall x, holds_mx (arr x) x^T) ->
  means_calibrated (@vec_cone_coords n) (@is_vec_int n) (fun d => is_vec_cone_mean (niw_pdf_of (n := n) d))
    (fun d x => multivariate_normal (arr x) d outer)
    (fun d x => let* p := multivariate_normal_predictive d in Ok (mv_pdf Flat (MultivariateStudentT_dist p) x))
    (@niw_mean_ok n).
Proof. exact mvn_means. Qed.
Print Assumptions C82_multivariate_normal_means.

