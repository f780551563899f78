(** C78: on average, an observation reduces the variance. *)

From Coq Require Import Reals Lra ZArith Lia.
From Coquelicot Require Import Coquelicot.
From Verif Require Import Model.Num Model.Py Model.Dists Model.ScipyDist Model.Models.
From Verif Require Import Spec.Special Spec.Densities Spec.Bayes Spec.Joint Spec.Moments Spec.Prequential Spec.Calibration.
From Verif Require Import Analysis.GammaFacts Proofs.Conj Proofs.Predictive Proofs.Spread.
From Coq Require Import List.
Import ListNotations.
Open Scope R_scope.

(** C78: binomial_beta with n trials *)
Theorem C78_binomial_beta :
  forall n,
  (0 < n)%nat ->
  variance_averages (up_to n) Fpos0 Fone (fun d => pdf (Beta_dist d))
    (fun d k => Ok (binomial_beta (INR n) (INR k) d))
    (fun d k => Ok (pmf (BetaBinomial_dist (binomial_beta_predictive (INR n) d)) (Z.of_nat k)))
    (fun d => (Beta_alpha d + Beta_beta d) / (Beta_alpha d + Beta_beta d + INR n))
    (fun d => 0 < Beta_alpha d /\ 0 < Beta_beta d) (fun k => (k <= n)%nat).
Proof. exact binomial_variance_averages. Qed.

Example C78_case : (0 < 5)%nat /\ (0 < Beta_alpha (mkBeta 1 2) /\ 0 < Beta_beta (mkBeta 1 2)).
Proof. simpl. split; [lia|lra]. Qed.

Print Assumptions C78_binomial_beta.

(** C78: bernoulli_beta *)
Theorem C78_bernoulli_beta :
  variance_averages (up_to 1) Fpos0 Fone (fun d => pdf (Beta_dist d))
    (fun d k => Ok (bernoulli_beta (INR k) d))
    (fun d k => Ok (pmf (BetaBinomial_dist (bernoulli_beta_predictive d)) (Z.of_nat k)))
    (fun d => (Beta_alpha d + Beta_beta d) / (Beta_alpha d + Beta_beta d + 1))
    (fun d => 0 < Beta_alpha d /\ 0 < Beta_beta d) (fun k => (k <= 1)%nat).
Proof. exact bernoulli_variance_averages. Qed.

(** From Beta(1, 1), with variance 1/12: either outcome has probability 1/2 and
    leaves Beta(2, 1) or Beta(1, 2), with variance 1/18 = 2/3 of 1/12. *)
Example C78_bernoulli_case : (0 < Beta_alpha (mkBeta 1 1) /\ 0 < Beta_beta (mkBeta 1 1)) /\ / 2 * / 18 + / 2 * / 18 = (1 + 1) / (1 + 1 + 1) * / 12.
Proof. simpl; lra. Qed.

Print Assumptions C78_bernoulli_beta.

(** C78: negative_binomial_beta, for the releases of scipy that have the predictive distribution *)
Theorem C78_negative_binomial_beta :
  forall (major minor micro : nat) (rest : list nat) (r : R),
  0 < r -> (1 < major \/ (major = 1 /\ 12 <= minor))%nat ->
  variance_decreases over_nat Fpos0 Fone (fun d => pdf (Beta_dist d))
    (fun d x => Ok (negative_binomial_beta r 1 (INR x) d))
    (fun d x => let* D := BetaNegativeBinomial_dist (major :: minor :: micro :: rest) (negative_binomial_beta_predictive r d) in Ok (pmf D (Z.of_nat x)))
    (fun d => 0 < Beta_alpha d /\ 0 < Beta_beta d) (fun _ => True).
Proof. exact negative_binomial_variance_decreases. Qed.

Example C78_negative_binomial_case : 0 < 3 /\ (1 < 1 \/ (1 = 1 /\ 12 <= 13))%nat /\ (0 < Beta_alpha (mkBeta 1 2) /\ 0 < Beta_beta (mkBeta 1 2)).
Proof. simpl. split; [lra|]. split; [lia|lra]. Qed.

Print Assumptions C78_negative_binomial_beta.

(** C78: poisson_gamma, one unit *)
Theorem C78_poisson_gamma :
  variance_averages over_nat Fpos0 Finf (fun d => pdf (Gamma_dist d))
    (fun d x => Ok (poisson_gamma (INR x) 1 d))
    (fun d x => Ok (pmf (NegativeBinomial_dist (poisson_gamma_predictive d 1)) (Z.of_nat x)))
    (fun d => Gamma_beta d / (Gamma_beta d + 1))
    (fun d => 0 < Gamma_alpha d /\ 0 < Gamma_beta d) (fun _ => True).
Proof. exact poisson_variance_averages. Qed.

Example C78_poisson_case : (0 < Gamma_alpha (mkGamma 2 3) /\ 0 < Gamma_beta (mkGamma 2 3)) /\ 3 / (3 + 1) = 0.75.
Proof. simpl; lra. Qed.

Print Assumptions C78_poisson_gamma.

(** C78: gamma_known_shape *)
Theorem C78_gamma_known_shape :
  forall alpha,
  0 < alpha ->
  variance_averages (over_reals Fpos0 Finf) Fpos0 Finf (fun d => pdf (Gamma_dist d))
    (fun d x => Ok (gamma_known_shape x 1 alpha d))
    (fun d x => Ok (pdf (CompoundGamma_dist (gamma_known_shape_predictive d alpha)) x))
    (fun d => (Gamma_alpha d + 1) / (Gamma_alpha d + 1 + alpha))
    (fun d => 0 < Gamma_alpha d /\ 0 < Gamma_beta d) (fun x => 0 < x).
Proof. exact gamma_known_shape_variance_averages. Qed.

Example C78_gamma_case : 0 < 2 /\ (0 < Gamma_alpha (mkGamma 3 4) /\ 0 < Gamma_beta (mkGamma 3 4)).
Proof. simpl; lra. Qed.

Print Assumptions C78_gamma_known_shape.

(** C78: normal_known_variance *)
Theorem C78_normal_known_variance :
  forall var,
  0 < var ->
  variance_averages (over_reals Fminf Finf) Fminf Finf (fun d => pdf (Normal_dist d))
    (fun d x => Ok (normal_known_variance x 1 var d))
    (fun d x => Ok (pdf (Normal_dist (normal_known_variance_predictive var d)) x))
    (fun d => var / (var + Normal_sigma d ^ 2)) (fun d => 0 < Normal_sigma d) (fun _ => True).
Proof. exact normal_known_variance_variance_averages. Qed.

Example C78_normal_case : 0 < 16 /\ 0 < Normal_sigma (mkNormal 1 3).
Proof. simpl; lra. Qed.

Print Assumptions C78_normal_known_variance.

(** C78: normal_known_precision *)
Theorem C78_normal_known_precision :
  forall precision,
  0 < precision ->
  variance_averages (over_reals Fminf Finf) Fminf Finf (fun d => pdf (Normal_dist d))
    (fun d x => Ok (normal_known_precision x 1 precision d))
    (fun d x => Ok (pdf (Normal_dist (normal_known_precision_predictive precision d)) x))
    (fun d => / (1 + precision * Normal_sigma d ^ 2)) (fun d => 0 < Normal_sigma d) (fun _ => True).
Proof. exact normal_known_precision_variance_averages. Qed.

Example C78_precision_case : 0 < / 16 /\ 0 < Normal_sigma (mkNormal 1 3).
Proof. simpl; lra. Qed.

Print Assumptions C78_normal_known_precision.

(** C78: normal_known_mean (the variance of the unknown variance), for both families of priors, where the prior has a variance *)
Theorem C78_normal_known_mean :
  forall mu,
  variance_averages (over_reals Fminf Finf) Fpos0 Finf (fun d => pdf (variance_dist d))
    (fun d x => Ok (normal_known_mean x (x ^ 2) 1 mu d))
    (fun d x => Ok (pdf (StudentT_dist (normal_known_mean_predictive mu d)) x))
    (fun d => match d with
              | VIG d => (InverseGamma_alpha d - 1) / (InverseGamma_alpha d - / 2)
              | VSICS d => (ScaledInverseChiSquared_nu d - 2) / (ScaledInverseChiSquared_nu d - 1) end)
    (fun d => variance_ok d /\ match d with VIG d => 2 < InverseGamma_alpha d | VSICS d => 4 < ScaledInverseChiSquared_nu d end)
    (fun _ => True).
Proof. exact normal_known_mean_variance_averages. Qed.

Example C78_known_mean_case : (variance_ok (VSICS (mkScaledInverseChiSquared 5 2)) /\ 4 < 5) /\ variance_ok (VIG (mkInverseGamma 3 4)) /\ 2 < 3.
Proof. simpl; lra. Qed.

Print Assumptions C78_normal_known_mean.
