(** C102: with unlimited data, the vector models settle on the quantities that produced
    the data, whatever the prior; and their predictive tends to the law of the next
    observation. The data are any stream whose averages converge (Spec/VectorLimits.v). *)

From Coq Require Import Reals ZArith Lra List.
From Coquelicot Require Import Coquelicot.
From mathcomp Require Import all_ssreflect all_algebra.
From Verif Require Import Model.Num Model.Py Model.Dists Model.ScipyDist Model.NdArray Model.MatrixModel.
From Verif Require Import Analysis.RField Spec.Matrices Spec.Wishart Spec.Arrays Spec.PrequentialArrays Spec.VectorMoments Spec.VectorLimits
  Analysis.Posdef Proofs.Arrays Proofs.LinReg Proofs.MvNormal Proofs.Wishart Proofs.VectorLimits Proofs.VectorLimitsCases.
Delimit Scope R_scope with Re.

Set Implicit Arguments.
Unset Strict Implicit.
Unset Printing Implicit Defensive.
Local Open Scope ring_scope.

(** C102: mean vector unknown, covariance matrix known: the posterior mean tends to the
    limit [m] of the averages, the posterior covariance to the zero matrix, and the density
    of the predictive at every point to that of the normal law with mean [m]. *)
Theorem C102_known_covariance :
  forall n (l : layout) np_inv inv, inverts np_inv -> inverts inv ->
  forall (xs : nat -> list 'cV[R]_n) s prior (m mu0 : 'cV[R]_n) (cov0 : 'M[R]_n),
  unlimited xs -> (forall N, holds_sample l (xs N) (s N)) -> holds_mvn l prior mu0 cov0 -> posdef cov0 ->
  (forall i, average_tends xs (fun x => x i 0) (m i 0)) ->
  forall cov (covm : 'M[R]_n), holds_mx cov covm -> posdef covm ->
  exists (mus : nat -> 'cV[R]_n) covs dens,
    (forall N, exists post pred, multivariate_normal_known_covariance np_inv (s N).1 (s N).2 cov prior inv = Ok post /\
       is_vec_mean (mv_pdf l (n := n) (MultivariateNormal_dist post)) (mus N) /\
       is_vec_cov (mv_pdf l (n := n) (MultivariateNormal_dist post)) (covs N) /\
       multivariate_normal_known_covariance_predictive post cov = Ok pred /\
       dens N = mv_pdf l (n := n) (MultivariateNormal_dist pred)) /\
    mx_lim mus m /\ mx_lim covs 0 /\ forall x, is_lim_seq (fun N => dens N x) (mvn_pdf m covm x).
Proof. exact known_covariance_limit. Qed.

(** six points in the plane, over and over: their mean is (1, 3) and their covariance [ex_cov] *)
Example C102_points_case :
  unlimited (copies ex_points) /\ (forall i, average_tends (copies ex_points) (fun x => x i 0) (vec2 1%Re 3%Re i 0)) /\
  (forall i j, average_tends (copies ex_points)
     (fun x => ((x i 0%R - vec2 1%Re 3%Re i 0%R) * (x j 0%R - vec2 1%Re 3%Re j 0%R))%Re) (ex_cov i j)) /\
  posdef ex_cov /\ (forall N, exists s, holds_sample Flat (copies ex_points N) s) /\ holds_mvn Flat ex_prior 0 ex_cov.
Proof.
  split; first exact: copies_unlimited. split; first exact: ex_points_mean. split; first exact: ex_points_cov.
  split; first exact: posdef_1J. split; last exact: ex_prior_holds. move=> N. exact: copies_sample.
Qed.
Print Assumptions C102_known_covariance.

(** C102: the same with the precision matrix known *)
Theorem C102_known_precision :
  forall n (l : layout) np_inv inv, inverts np_inv -> inverts inv ->
  forall (xs : nat -> list 'cV[R]_n) s prior (m mu0 : 'cV[R]_n) (cov0 : 'M[R]_n),
  unlimited xs -> (forall N, holds_sample l (xs N) (s N)) -> holds_mvn l prior mu0 cov0 -> posdef cov0 ->
  (forall i, average_tends xs (fun x => x i 0) (m i 0)) ->
  forall prec (P : 'M[R]_n), holds_mx prec P -> posdef P ->
  exists (mus : nat -> 'cV[R]_n) covs dens,
    (forall N, exists post pred, multivariate_normal_known_precision np_inv (s N).1 (s N).2 prec prior inv = Ok post /\
       is_vec_mean (mv_pdf l (n := n) (MultivariateNormal_dist post)) (mus N) /\
       is_vec_cov (mv_pdf l (n := n) (MultivariateNormal_dist post)) (covs N) /\
       multivariate_normal_known_precision_predictive post prec inv = Ok pred /\
       dens N = mv_pdf l (n := n) (MultivariateNormal_dist pred)) /\
    mx_lim mus m /\ mx_lim covs 0 /\ forall x, is_lim_seq (fun N => dens N x) (mvn_pdf m (invmx P) x).
Proof. exact known_precision_limit. Qed.
Print Assumptions C102_known_precision.

(** C102: covariance matrix unknown, mean vector known: the posterior mean of the
    covariance matrix tends to the limit of the average outer products about that mean. *)
Theorem C102_known_mean :
  forall n X muA prior (xs : nat -> list 'cV[R]_n) (mu : 'cV[R]_n) nu (psi S : 'M[R]_n),
  unlimited xs -> (forall N, holds_mx (X N) (rows (xs N))) -> holds_vec Flat muA mu -> holds_iw prior nu psi -> posdef psi -> (INR n - 1 < nu)%Re ->
  (forall i j, average_tends xs (fun x => ((x i 0%R - mu i 0%R) * (x j 0%R - mu j 0%R))%Re) (S i j)) ->
  exists Ss : nat -> 'M[R]_n,
    (forall N, exists post, multivariate_normal_known_mean (X N) muA prior = Ok post /\
       ((2 <= length (xs N))%N -> is_cone_mean (iw_pdf_of (n := n) post) (Ss N))) /\
    mx_lim Ss S.
Proof. exact known_mean_limit. Qed.

Example C102_wishart_case :
  (forall N, holds_mx (of_mx (rows (copies ex_points N))) (rows (copies ex_points N))) /\
  holds_vec Flat (of_flat (vec2 1%Re 3%Re)) (vec2 1%Re 3%Re) /\
  holds_iw (mkInverseWishart (scalar 4%Re) (of_mx ex_cov)) 4%Re ex_cov /\ Rlt (INR 2 - 1)%Re 4%Re.
Proof.
  split; first by move=> N; exact: of_mx_holds. split; first exact: of_flat_holds. split; last by rewrite /=; lra.
  eexists _, _. split; first reflexivity. split; [by split | exact: of_mx_holds].
Qed.
Print Assumptions C102_known_mean.

(** C102: mean vector and covariance matrix unknown: both posterior means tend to the
    limits, and the density of the predictive to that of the normal law they describe. *)
Theorem C102_multivariate_normal :
  forall n outer X prior (xs : nat -> list 'cV[R]_n) (mu m : 'cV[R]_n) k nu (psi S : 'M[R]_n),
  makes_outer outer -> unlimited xs -> (forall N, holds_mx (X N) (rows (xs N))) -> holds_niw prior mu k nu psi ->
  posdef psi -> (INR n - 1 < nu)%Re -> (0 < k)%Re ->
  (forall i, average_tends xs (fun x => x i 0) (m i 0)) ->
  (forall i j, average_tends xs (fun x => ((x i 0%R - m i 0%R) * (x j 0%R - m j 0%R))%Re) (S i j)) -> posdef S ->
  exists (mus : nat -> 'cV[R]_n) Ss dens,
    (forall N, exists post pred, multivariate_normal (X N) prior outer = Ok post /\
       ((2 <= length (xs N))%N -> is_vec_cone_mean (niw_pdf_of (n := n) post) (mus N, Ss N)) /\
       multivariate_normal_predictive post = Ok pred /\
       dens N = mv_pdf Flat (n := n) (MultivariateStudentT_dist pred)) /\
    mx_lim mus m /\ mx_lim Ss S /\ forall x, is_lim_seq (fun N => dens N x) (mvn_pdf m S x).
Proof. exact multivariate_normal_limit. Qed.
Print Assumptions C102_multivariate_normal.

(** C102: linear regression. If the averages of the products of covariates settle on a
    positive definite [G], the residuals about [beta] on zero against every covariate, and
    their squares on [sigma2], then the posterior settles on [beta] and [sigma2], the matrix
    [delta_inverse] on zero, and the predictive for any new covariates [Xm] on independent
    normal responses about [Xm beta]. *)
Theorem C102_linear_regression :
  forall n l inv eye (data : nat -> list (obs n)) arrays prior (mu : 'cV[R]_n) Di a b (beta : 'cV[R]_n) (G : 'M[R]_n) sigma2
    K X (Xm : 'M[R]_(K, n)),
  inverts inv -> makes_eye eye -> unlimited data -> (forall N, holds_data l (data N) (arrays N)) ->
  holds_nig l prior mu Di a b -> posdef Di -> (0 < a)%Re -> (0 < b)%Re -> holds_mx X Xm ->
  posdef G -> (forall i j, average_tends data (fun o => (o.1 i 0%R * o.1 j 0%R)%Re) (G i j)) ->
  (forall i, average_tends data (fun o => (o.1 i 0%R * residual beta o)%Re) 0%Re) ->
  average_tends data (fun o => (residual beta o ^ 2)%Re) sigma2 -> (0 < sigma2)%Re ->
  exists (betas : nat -> 'cV[R]_n) covs sigma2s dens,
    (forall N, exists post pred, linear_regression (arrays N).1 (arrays N).2 prior inv = Ok post /\
       (exists a' b', holds_nig l post (betas N) (covs N) a' b') /\
       ((2 <= length (data N))%N -> is_vec_pos_mean (nig_pdf_of l (n := n) post) (betas N, sigma2s N)) /\
       linear_regression_predictive post X eye = Ok pred /\
       dens N = mv_pdf l (n := K) (MultivariateStudentT_dist pred)) /\
    mx_lim betas beta /\ mx_lim covs 0 /\ is_lim_seq sigma2s sigma2 /\
    forall y, is_lim_seq (fun N => dens N y) (mvn_pdf (Xm *m beta) (sigma2 *: 1%:M) y).
Proof. exact linear_regression_limit. Qed.

(** six observations, over and over: coefficients (1, 2), residuals 1 and -1 *)
Example C102_regression_case :
  unlimited (copies ex_obs) /\ posdef ex_gram /\
  (forall N, holds_data Flat (copies ex_obs N) (of_mx (design (copies ex_obs N)), of_flat (response (copies ex_obs N)))) /\
  (forall i j, average_tends (copies ex_obs) (fun o => (o.1 i 0%R * o.1 j 0%R)%Re) (ex_gram i j)) /\
  (forall i, average_tends (copies ex_obs) (fun o => (o.1 i 0%R * residual (vec2 1%Re 2%Re) o)%Re) 0%Re) /\
  average_tends (copies ex_obs) (fun o => (residual (vec2 1%Re 2%Re) o ^ 2)%Re) 1%Re.
Proof.
  split; first exact: copies_unlimited. split; first exact: ex_gram_posdef.
  split; first by move=> N; split; [exact: of_mx_holds | exact: of_flat_holds].
  split; first exact: ex_obs_gram. split; [exact: ex_obs_orthogonal | exact: ex_obs_variance].
Qed.
Print Assumptions C102_linear_regression.
