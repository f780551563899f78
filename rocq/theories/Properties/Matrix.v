(** C43-C46: linear regression and multivariate normal models. *)

From Coq Require Import Reals Lra List.
From mathcomp Require Import all_ssreflect all_algebra.
From Verif Require Import Model.Num Model.Py Model.Dists Model.NdArray Model.MatrixModel.
From Verif Require Import Analysis.RField Spec.Matrices Spec.Arrays.
From Verif Require Import Analysis.Posdef Analysis.Regression Proofs.Arrays Proofs.LinReg Proofs.MvNormal.
Delimit Scope R_scope with Re.
Local Open Scope ring_scope.

(** C43: whatever correct inversion routine is supplied, the returned object holds
    the parameters of the Bayes posterior of (coefficients, variance), for every
    number of rows and columns, and these are proper. *)
Theorem C43_linear_regression_posterior :
  forall (N n : nat) (l : layout) inv X y prior (Xm : 'M[R]_(N, n)) (ym : 'cV[R]_N) (mu : 'cV[R]_n) (Di : 'M[R]_n) (a b : R),
  inverts inv -> holds_mx X Xm -> holds_vec l y ym -> holds_nig l prior mu Di a b ->
  posdef Di -> (0 < a)%Re -> (0 < b)%Re ->
  exists post mu' Di' a' b', linear_regression X y prior inv = Ok post /\
    holds_nig l post mu' Di' a' b' /\ posdef Di' /\ (0 < a')%Re /\ (0 < b')%Re /\
    vec_posterior2 (mv_nig_pdf mu Di a b) (regression_lik Xm ym) (mv_nig_pdf mu' Di' a' b').
Proof. exact linear_regression_posterior. Qed.

(** three observations, two coefficients, correlated prior; flat and column layout *)
Example C43_case :
  let Xm : 'M[R]_(3, 2) := \matrix_(i, j) INR (i + j) in
  let ym : 'cV[R]_3 := \matrix_(i, j) INR (i * i) in
  let Di : 'M[R]_2 := 1%:M + const_mx 1 in
  inverts real_inv /\ holds_mx (of_mx Xm) Xm /\ holds_vec Flat (of_flat ym) ym /\ holds_vec Column (of_mx ym) ym /\
  holds_nig Flat (mkNormalInverseGamma (of_flat (0 : 'cV[R]_2)) (scalar 2%Re) (scalar 1%Re) (Some (of_mx Di)) None)
            (0 : 'cV[R]_2) Di 2 1 /\
  posdef Di.
Proof.
  cbv zeta. split; first exact: real_inv_inverts. split; first exact: of_mx_holds.
  split; first exact: of_flat_holds. split; first exact: of_mx_holds. split; last exact: posdef_1J.
  split; first exact: of_flat_holds. split; first by left. split; first by left. split; first by [].
  eexists. split; first reflexivity. exact: of_mx_holds.
Qed.
Print Assumptions C43_linear_regression_posterior.

(** A prior given with [nu] cannot be used. *)
Theorem C43_scalar_prior_raises :
  forall (A : Type) (NA : Num A) X y (prior : NormalInverseGamma (nd A) (nd A) (nd A)) inv n s,
  nd_shape X = n :: s -> NormalInverseGamma_delta_inverse prior = None ->
  linear_regression X y prior inv = Raise LinAlgError.
Proof. exact linear_regression_needs_matrix. Qed.
Print Assumptions C43_scalar_prior_raises.

(** C44: any number of batches of any sizes, in sequence, give the parameters of a
    single update with all rows stacked. *)
Theorem C44_linear_regression_sequential :
  forall (n : nat) (l : layout) inv prior (mu : 'cV[R]_n) Di a b
         (batches : list (list (obs n))) (arrays : list (nd R * nd R)) everything,
  inverts inv -> holds_nig l prior mu Di a b -> posdef Di ->
  List.Forall2 (holds_data l) batches arrays -> holds_data l (List.concat batches) everything ->
  exists post1 post2 (mu' : 'cV[R]_n) Di' a' b',
    List.fold_left (fun r d => bind r (fun p => linear_regression d.1 d.2 p inv)) arrays (Ok prior) = Ok post1 /\
    linear_regression everything.1 everything.2 prior inv = Ok post2 /\
    holds_nig l post1 mu' Di' a' b' /\ holds_nig l post2 mu' Di' a' b'.
Proof. exact linear_regression_sequential. Qed.

Example C44_case :
  let batches : list (list (obs 2)) := [:: [:: (const_mx 1, 3%Re); (0, 1%Re)]; [::]; [:: (delta_mx 0 0, 2%Re)]] in
  let arr (d : list (obs 2)) := (of_mx (design d), of_flat (response d)) in
  length (List.concat batches) = 3%N /\
  List.Forall2 (holds_data Flat) batches (List.map arr batches) /\
  holds_data Flat (List.concat batches) (arr (List.concat batches)).
Proof.
  cbv zeta. split; first by []. split.
  - do 3 (apply: List.Forall2_cons; first by split; [exact: of_mx_holds | exact: of_flat_holds]).
    exact: List.Forall2_nil.
  - split; [exact: of_mx_holds | exact: of_flat_holds].
Qed.
Print Assumptions C44_linear_regression_sequential.

(** C45: the returned multivariate t has the claimed parameters, and its density
    at every response vector is the integral of the likelihood against the
    distribution of coefficients and variance. *)
Theorem C45_linear_regression_predictive :
  forall (N n : nat) (l : layout) eye X d (Xm : 'M[R]_(N, n)) (mu : 'cV[R]_n) (Di : 'M[R]_n) (a b : R),
  makes_eye eye -> holds_mx X Xm -> holds_nig l d mu Di a b -> posdef Di -> (0 < a)%Re -> (0 < b)%Re ->
  exists pred m S nu, linear_regression_predictive d X eye = Ok pred /\
    holds_mvt l pred m S nu /\ posdef S /\ (0 < nu)%Re /\
    m = Xm *m mu /\ nu = (2 * a)%Re /\ S = (b / a)%Re *: (1%:M + Xm *m Di *m Xm^T) /\
    forall y, vec_marginal2 (mv_nig_pdf mu Di a b) (regression_lik Xm y) (mvt_pdf m S nu y).
Proof. exact linear_regression_predictive_marginal. Qed.

Example C45_case : makes_eye np_eye /\ holds_mx (of_mx (const_mx 1 : 'M[R]_(3, 2))) (const_mx 1 : 'M[R]_(3, 2)).
Proof. split; [exact: np_eye_makes_eye | exact: of_mx_holds]. Qed.
Print Assumptions C45_linear_regression_predictive.

(** C46: the posterior of the mean vector. *)
Theorem C46_known_covariance_posterior :
  forall (n : nat) (l : layout) np_inv, inverts np_inv -> forall inv, inverts inv ->
  forall (xs : list 'cV[R]_n) s cov prior mu0 cov0 covm,
  holds_sample l xs s -> holds_mx cov covm -> holds_mvn l prior mu0 cov0 -> posdef cov0 -> posdef covm ->
  exists post mu' cov', multivariate_normal_known_covariance np_inv s.1 s.2 cov prior inv = Ok post /\
    holds_mvn l post mu' cov' /\ posdef cov' /\
    vec_posterior (mvn_pdf mu0 cov0) (mvn_lik covm xs) (mvn_pdf mu' cov').
Proof. exact known_covariance_posterior. Qed.

Example C46_case :
  holds_sample Flat ex_xs ex_sample /\ holds_mvn Flat ex_prior (0 : 'cV[R]_2) ex_cov /\ posdef ex_cov.
Proof. split; [exact: ex_sample_holds | split; [exact: ex_prior_holds | exact: posdef_1J]]. Qed.
Print Assumptions C46_known_covariance_posterior.

Theorem C46_known_precision_posterior :
  forall (n : nat) (l : layout) np_inv, inverts np_inv -> forall inv, inverts inv ->
  forall (xs : list 'cV[R]_n) s prec prior mu0 cov0 P,
  holds_sample l xs s -> holds_mx prec P -> holds_mvn l prior mu0 cov0 -> posdef cov0 -> posdef P ->
  exists post mu' cov', multivariate_normal_known_precision np_inv s.1 s.2 prec prior inv = Ok post /\
    holds_mvn l post mu' cov' /\ posdef cov' /\
    vec_posterior (mvn_pdf mu0 cov0) (mvn_lik (invmx P) xs) (mvn_pdf mu' cov').
Proof. exact known_precision_posterior. Qed.
Print Assumptions C46_known_precision_posterior.

Theorem C46_variants_agree :
  forall (n : nat) (l : layout) np_inv, inverts np_inv -> forall inv, inverts inv ->
  forall (xs : list 'cV[R]_n) s cov prec prior (mu0 : 'cV[R]_n) cov0 (covm : 'M[R]_n),
  holds_sample l xs s -> holds_mx cov covm -> holds_mx prec (invmx covm) ->
  holds_mvn l prior mu0 cov0 -> posdef cov0 -> posdef covm ->
  exists post1 post2 (mu' : 'cV[R]_n) cov',
    multivariate_normal_known_covariance np_inv s.1 s.2 cov prior inv = Ok post1 /\
    multivariate_normal_known_precision np_inv s.1 s.2 prec prior inv = Ok post2 /\
    holds_mvn l post1 mu' cov' /\ holds_mvn l post2 mu' cov'.
Proof. exact known_covariance_precision_agree. Qed.
Print Assumptions C46_variants_agree.

Theorem C46_sequential :
  forall (n : nat) (l : layout) np_inv, inverts np_inv -> forall inv, inverts inv ->
  forall (batches : list (list 'cV[R]_n)) ss s cov prior (mu0 : 'cV[R]_n) cov0 (covm : 'M[R]_n),
  List.Forall2 (holds_sample l) batches ss -> holds_sample l (List.concat batches) s ->
  holds_mx cov covm -> holds_mvn l prior mu0 cov0 -> posdef cov0 -> posdef covm ->
  exists post1 post2 (mu' : 'cV[R]_n) cov',
    List.fold_left (fun r s => bind r (fun p => multivariate_normal_known_covariance np_inv s.1 s.2 cov p inv))
                   ss (Ok prior) = Ok post1 /\
    multivariate_normal_known_covariance np_inv s.1 s.2 cov prior inv = Ok post2 /\
    holds_mvn l post1 mu' cov' /\ holds_mvn l post2 mu' cov'.
Proof. exact known_covariance_sequential. Qed.
Print Assumptions C46_sequential.

(** The predictive of one more observation is the integral over the mean. *)
Theorem C46_known_covariance_predictive :
  forall (n : nat) (l : layout) d cov (mu0 : 'cV[R]_n) cov0 (covm : 'M[R]_n),
  holds_mvn l d mu0 cov0 -> holds_mx cov covm -> posdef cov0 -> posdef covm ->
  exists pred (mu' : 'cV[R]_n) cov', multivariate_normal_known_covariance_predictive d cov = Ok pred /\
    holds_mvn l pred mu' cov' /\ posdef cov' /\
    forall x, vec_marginal (mvn_pdf mu0 cov0) (fun t => mvn_pdf t covm x) (mvn_pdf mu' cov' x).
Proof. exact known_covariance_predictive. Qed.
Print Assumptions C46_known_covariance_predictive.

Theorem C46_known_precision_predictive :
  forall (n : nat) (l : layout) inv, inverts inv -> forall d prec (mu0 : 'cV[R]_n) cov0 (P : 'M[R]_n),
  holds_mvn l d mu0 cov0 -> holds_mx prec P -> posdef cov0 -> posdef P ->
  exists pred (mu' : 'cV[R]_n) cov', multivariate_normal_known_precision_predictive d prec inv = Ok pred /\
    holds_mvn l pred mu' cov' /\ posdef cov' /\
    forall x, vec_marginal (mvn_pdf mu0 cov0) (fun t => mvn_pdf t (invmx P) x) (mvn_pdf mu' cov' x).
Proof. exact known_precision_predictive. Qed.
Print Assumptions C46_known_precision_predictive.

(** C46, last clause ("a user-supplied inv is used for every inversion") is false:
    the inner helper always uses np.linalg.inv, so the result depends on it, and
    the call fails when np.linalg.inv fails although the supplied [inv] works. *)
Theorem C46_custom_inv_refuted :
  ~ (forall np_inv np_inv' inv cnt xb cov prior,
       multivariate_normal_known_covariance np_inv cnt xb cov prior inv
       = @multivariate_normal_known_covariance R NumR np_inv' cnt xb cov prior inv).
Proof. exact custom_inv_refuted. Qed.
Print Assumptions C46_custom_inv_refuted.

Theorem C46_custom_inv_fails :
  exists inv cnt xb cov prior, inverts inv /\
    (exists post, multivariate_normal_known_covariance inv cnt xb cov prior inv = Ok post) /\
    (forall post, multivariate_normal_known_covariance (fun _ => Raise LinAlgError) cnt xb cov prior inv <> Ok post).
Proof. exact custom_inv_not_enough. Qed.
Print Assumptions C46_custom_inv_fails.
