(** C81: the chain rule of probability, and averages over the predictive, for the
    models of vectors and matrices. *)

From Coq Require Import Reals ZArith Lra List.
From Coquelicot Require Import Coquelicot.
From mathcomp Require Import all_ssreflect all_algebra.
From Verif Require Import Model.Num Model.Py Model.Dists Model.ScipyDist Model.NdArray Model.MatrixModel.
From Verif Require Import Spec.Densities Spec.Prequential Spec.Calibration.
From Verif Require Import Analysis.RField Spec.Matrices Spec.Wishart Spec.Arrays Spec.PrequentialArrays Analysis.Posdef
  Proofs.Arrays Proofs.LinReg Proofs.MvNormal Proofs.Wishart Proofs.PrequentialArrays.
Delimit Scope R_scope with Re.

Set Implicit Arguments.
Unset Strict Implicit.
Unset Printing Implicit Defensive.
Local Open Scope ring_scope.

(** C81: a mean vector with known covariance, one vector at a time *)
Theorem C81_known_covariance :
  forall n (l : layout) np_inv inv one (arr : 'cV[R]_n -> nd R) cov (covm : 'M[R]_n),
  inverts np_inv -> inverts inv -> holds_sc one 1%Re -> (forall x, holds_vec l (arr x) x) -> holds_mx cov covm -> posdef covm ->
  prequential (@is_vec_int n) (fun d => mv_pdf l (MultivariateNormal_dist d)) (fun t x => mvn_pdf t covm x)
    (fun d x => multivariate_normal_known_covariance np_inv one (arr x) cov d inv)
    (fun d x => let* p := multivariate_normal_known_covariance_predictive d cov in Ok (mv_pdf l (MultivariateNormal_dist p) x))
    anywhere (mvn_ok n l) (fun _ => True).
Proof. exact known_covariance_chain. Qed.

Example C81_case :
  inverts real_inv /\ holds_sc (scalar 1%Re) 1%Re /\ (forall x : 'cV[R]_2, holds_vec Flat (of_flat x) x) /\
  holds_mx (of_mx ex_cov) ex_cov /\ posdef ex_cov /\ mvn_ok 2 Flat ex_prior.
Proof.
  split; first exact: real_inv_inverts. split; first by []. split; first exact: of_flat_holds.
  split; first exact: of_mx_holds. split; first exact: posdef_1J.
  exists 0, ex_cov. split; [exact: ex_prior_holds | exact: posdef_1J].
Qed.
Print Assumptions C81_known_covariance.

Theorem C81_known_precision :
  forall n (l : layout) np_inv inv one (arr : 'cV[R]_n -> nd R) prec (P : 'M[R]_n),
  inverts np_inv -> inverts inv -> holds_sc one 1%Re -> (forall x, holds_vec l (arr x) x) -> holds_mx prec P -> posdef P ->
  prequential (@is_vec_int n) (fun d => mv_pdf l (MultivariateNormal_dist d)) (fun t x => mvn_pdf t (invmx P) x)
    (fun d x => multivariate_normal_known_precision np_inv one (arr x) prec d inv)
    (fun d x => let* p := multivariate_normal_known_precision_predictive d prec inv in Ok (mv_pdf l (MultivariateNormal_dist p) x))
    anywhere (mvn_ok n l) (fun _ => True).
Proof. exact known_precision_chain. Qed.
Print Assumptions C81_known_precision.

(** C81: linear regression, one row of covariates and one response at a time; the
    responses seen so far and to come may have any covariates. *)
Theorem C81_linear_regression :
  forall n (l : layout) inv eye (arrX : 'cV[R]_n -> nd R) (arrY : R -> nd R),
  inverts inv -> makes_eye eye -> (forall x, holds_mx (arrX x) x^T) -> (forall y, holds_vec l (arrY y) (y%:M : 'cV[R]_1)) ->
  prequential (@over_vec_pos n) (nig_pdf_of l (n := n)) (@response_lik n)
    (fun d o => linear_regression (arrX o.1) (arrY o.2) d inv)
    (fun d o => let* p := linear_regression_predictive d (arrX o.1) eye in
                Ok (mv_pdf l (MultivariateStudentT_dist p) (o.2%:M : 'cV[R]_1)))
    (fun t => Rlt 0%Re t.2) (@nig_ok n l) (fun _ => True).
Proof. exact linear_regression_chain. Qed.

Example C81_regression_case :
  makes_eye np_eye /\ (forall x : 'cV[R]_2, holds_mx (of_mx x^T) x^T) /\
  (forall y, holds_vec Flat (of_flat (y%:M : 'cV[R]_1)) (y%:M : 'cV[R]_1)) /\
  nig_ok 2 Flat (mkNormalInverseGamma (of_flat (0 : 'cV[R]_2)) (scalar 2%Re) (scalar 1%Re) (Some (of_mx ex_cov)) None).
Proof.
  split; first exact: np_eye_makes_eye. split; first by move=> x; exact: of_mx_holds.
  split; first by move=> y; exact: of_flat_holds.
  exists 0, ex_cov, 2%Re, 1%Re. split; last by split; [exact: posdef_1J | split; lra].
  split; first exact: of_flat_holds. split; first by left. split; first by left. split; first by [].
  eexists. split; first reflexivity. exact: of_mx_holds.
Qed.
Print Assumptions C81_linear_regression.

(** C81: mean vector and covariance matrix unknown, one vector at a time *)
Theorem C81_multivariate_normal :
  forall n outer (arr : 'cV[R]_n -> nd R),
  makes_outer outer -> (forall x, holds_mx (arr x) x^T) ->
  prequential (@over_vec_cone n) (@niw_pdf_of n) (fun p x => mvn_pdf p.1 p.2 x)
    (fun d x => multivariate_normal (arr x) d outer)
    (fun d x => let* p := multivariate_normal_predictive d in Ok (mv_pdf Flat (MultivariateStudentT_dist p) x))
    (fun t => posdef t.2) (@niw_ok n) (fun _ => True).
Proof. exact mvn_chain. Qed.

Example C81_multivariate_normal_case :
  makes_outer np_outer /\
  niw_ok 2 (mkNormalInverseWishart (of_flat (const_mx 3%Re : 'cV[R]_2)) (scalar (/ 2)%Re) (scalar 4%Re) (of_mx ex_cov)).
Proof.
  split; first exact: np_outer_makes_outer.
  exists (const_mx 3%Re), (/ 2)%Re, 4%Re, ex_cov. split; last by split; [exact: posdef_1J | split; rewrite /=; lra].
  split; first exact: of_flat_holds. split; first by split.
  eexists _, _. split; first reflexivity. split; [by split | exact: of_mx_holds].
Qed.
Print Assumptions C81_multivariate_normal.

(** C81: averaged over the observations that are predicted, the posterior density is the prior density. *)
Theorem C81_known_covariance_calibrated :
  forall n (l : layout) np_inv inv one (arr : 'cV[R]_n -> nd R) cov (covm : 'M[R]_n),
  inverts np_inv -> inverts inv -> holds_sc one 1%Re -> (forall x, holds_vec l (arr x) x) -> holds_mx cov covm -> posdef covm ->
  calibrated (@is_vec_int n) (fun d => mv_pdf l (n := n) (MultivariateNormal_dist d))
    (fun d x => multivariate_normal_known_covariance np_inv one (arr x) cov d inv)
    (fun d x => let* p := multivariate_normal_known_covariance_predictive d cov in Ok (mv_pdf l (MultivariateNormal_dist p) x))
    anywhere (mvn_ok n l) (fun _ => True).
Proof. exact known_covariance_calibrated. Qed.
Print Assumptions C81_known_covariance_calibrated.

Theorem C81_known_precision_calibrated :
  forall n (l : layout) np_inv inv one (arr : 'cV[R]_n -> nd R) prec (P : 'M[R]_n),
  inverts np_inv -> inverts inv -> holds_sc one 1%Re -> (forall x, holds_vec l (arr x) x) -> holds_mx prec P -> posdef P ->
  calibrated (@is_vec_int n) (fun d => mv_pdf l (n := n) (MultivariateNormal_dist d))
    (fun d x => multivariate_normal_known_precision np_inv one (arr x) prec d inv)
    (fun d x => let* p := multivariate_normal_known_precision_predictive d prec inv in Ok (mv_pdf l (MultivariateNormal_dist p) x))
    anywhere (mvn_ok n l) (fun _ => True).
Proof. exact known_precision_calibrated. Qed.
Print Assumptions C81_known_precision_calibrated.

(** ... of the response to any given covariates *)
Theorem C81_linear_regression_calibrated :
  forall n (l : layout) inv eye X (x : 'cV[R]_n) (arrY : R -> nd R),
  inverts inv -> makes_eye eye -> holds_mx X x^T -> (forall y, holds_vec l (arrY y) (y%:M : 'cV[R]_1)) ->
  calibrated (over_reals (Rbar_locally m_infty) (Rbar_locally p_infty)) (nig_pdf_of l (n := n))
    (fun d y => linear_regression X (arrY y) d inv)
    (fun d y => let* p := linear_regression_predictive d X eye in
                Ok (mv_pdf l (MultivariateStudentT_dist p) (y%:M : 'cV[R]_1)))
    (fun t => Rlt 0%Re t.2) (@nig_ok n l) (fun _ => True).
Proof. exact linear_regression_calibrated. Qed.
Print Assumptions C81_linear_regression_calibrated.

Theorem C81_multivariate_normal_calibrated :
  forall n outer (arr : 'cV[R]_n -> nd R),
  makes_outer outer -> (forall x, holds_mx (arr x) x^T) ->
  calibrated (@is_vec_int n) (@niw_pdf_of n)
    (fun d x => multivariate_normal (arr x) d outer)
    (fun d x => let* p := multivariate_normal_predictive d in Ok (mv_pdf Flat (MultivariateStudentT_dist p) x))
    (fun t => posdef t.2) (@niw_ok n) (fun _ => True).
Proof. exact mvn_calibrated. Qed.
Print Assumptions C81_multivariate_normal_calibrated.
