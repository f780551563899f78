(** C77: averaged over the predicted observations, the posterior is the prior. *)

From Coq Require Import Reals Lra ZArith Lia.
From Coquelicot Require Import Coquelicot.
From Verif Require Import Model.Num Model.Py Model.NdArray Model.DirichletModel Model.Dists Model.ScipyDist Model.Models.
From Verif Require Import Spec.Special Spec.Densities Spec.Bayes Spec.Joint Spec.Moments Spec.Simplex Spec.Prequential Spec.Calibration.
From Verif Require Import Analysis.GammaFacts Proofs.Conj Proofs.Predictive Proofs.Calibration.
From Coq Require Import List.
Import ListNotations.
Open Scope R_scope.

(** C77: binomial_beta and its predictive, for n trials *)
Theorem C77_binomial_beta :
  forall n,
  calibrated (up_to n) (fun d => pdf (Beta_dist d))
    (fun d k => Ok (binomial_beta (INR n) (INR k) d))
    (fun d k => Ok (pmf (BetaBinomial_dist (binomial_beta_predictive (INR n) d)) (Z.of_nat k)))
    (fun p => 0 < p < 1) (fun d => 0 < Beta_alpha d /\ 0 < Beta_beta d) (fun k => (k <= n)%nat).
Proof. exact @binomial_calibrated. Qed.

Example C77_case : (0 < Beta_alpha (mkBeta 1 2) /\ 0 < Beta_beta (mkBeta 1 2)) /\ 0 < / 2 < 1 /\ (2 <= 3)%nat.
Proof. simpl; repeat split; try lra; lia. Qed.

Print Assumptions C77_binomial_beta.

(** C77: the mean of the posterior of binomial_beta *)
Theorem C77_binomial_beta_mean :
  forall n,
  mean_calibrated (up_to n) Fpos0 Fone (fun d => pdf (Beta_dist d))
    (fun d k => Ok (binomial_beta (INR n) (INR k) d))
    (fun d k => Ok (pmf (BetaBinomial_dist (binomial_beta_predictive (INR n) d)) (Z.of_nat k)))
    (fun d => 0 < Beta_alpha d /\ 0 < Beta_beta d) (fun k => (k <= n)%nat).
Proof. exact @binomial_mean_calibrated. Qed.

Print Assumptions C77_binomial_beta_mean.

(** C77: bernoulli_beta and its predictive *)
Theorem C77_bernoulli_beta :
  calibrated (up_to 1) (fun d => pdf (Beta_dist d))
    (fun d k => Ok (bernoulli_beta (INR k) d))
    (fun d k => Ok (pmf (BetaBinomial_dist (bernoulli_beta_predictive d)) (Z.of_nat k)))
    (fun p => 0 < p < 1) (fun d => 0 < Beta_alpha d /\ 0 < Beta_beta d) (fun k => (k <= 1)%nat).
Proof. exact @bernoulli_calibrated. Qed.

Example C77_bernoulli_case : (0 < Beta_alpha (mkBeta 1 2) /\ 0 < Beta_beta (mkBeta 1 2)) /\ 0 < / 2 < 1 /\ (0 <= 1)%nat.
Proof. simpl; repeat split; try lra; lia. Qed.

Print Assumptions C77_bernoulli_beta.

(** C77: the mean of the posterior of bernoulli_beta *)
Theorem C77_bernoulli_beta_mean :
  mean_calibrated (up_to 1) Fpos0 Fone (fun d => pdf (Beta_dist d))
    (fun d k => Ok (bernoulli_beta (INR k) d))
    (fun d k => Ok (pmf (BetaBinomial_dist (bernoulli_beta_predictive d)) (Z.of_nat k)))
    (fun d => 0 < Beta_alpha d /\ 0 < Beta_beta d) (fun k => (k <= 1)%nat).
Proof. exact @bernoulli_mean_calibrated. Qed.

(** From Beta(1, 2), with mean 1/3: a success has probability 1/3 and moves the mean
    to 2/4, a failure 2/3 and moves it to 1/4. *)
Example C77_mean_case : 1 / 3 * (2 / 4) + 2 / 3 * (1 / 4) = 1 / 3 /\ 0 < Beta_alpha (mkBeta 1 2) /\ 0 < Beta_beta (mkBeta 1 2).
Proof. simpl; lra. Qed.

Print Assumptions C77_bernoulli_beta_mean.

(** C77: negative_binomial_beta and its predictive, for the releases of scipy that have the distribution *)
Theorem C77_negative_binomial_beta :
  forall (major minor micro : nat) (rest : list nat) (r : R),
  0 < r -> (1 < major \/ (major = 1 /\ 12 <= minor))%nat ->
  calibrated over_nat (fun d => pdf (Beta_dist d))
    (fun d x => Ok (negative_binomial_beta r 1 (INR x) d))
    (fun d x => let* D := BetaNegativeBinomial_dist (major :: minor :: micro :: rest) (negative_binomial_beta_predictive r d) in Ok (pmf D (Z.of_nat x)))
    (fun p => 0 < p < 1) (fun d => 0 < Beta_alpha d /\ 0 < Beta_beta d) (fun _ => True).
Proof. exact @negative_binomial_calibrated. Qed.

Example C77_negative_binomial_case : 0 < 3 /\ (1 < 1 \/ (1 = 1 /\ 12 <= 13))%nat /\ (0 < Beta_alpha (mkBeta 1 2) /\ 0 < Beta_beta (mkBeta 1 2)) /\ 0 < / 2 < 1.
Proof. simpl. split; [lra|]. split; [lia|lra]. Qed.

Print Assumptions C77_negative_binomial_beta.

(** C77: the mean of the posterior of negative_binomial_beta *)
Theorem C77_negative_binomial_beta_mean :
  forall (major minor micro : nat) (rest : list nat) (r : R),
  0 < r -> (1 < major \/ (major = 1 /\ 12 <= minor))%nat ->
  mean_calibrated over_nat Fpos0 Fone (fun d => pdf (Beta_dist d))
    (fun d x => Ok (negative_binomial_beta r 1 (INR x) d))
    (fun d x => let* D := BetaNegativeBinomial_dist (major :: minor :: micro :: rest) (negative_binomial_beta_predictive r d) in Ok (pmf D (Z.of_nat x)))
    (fun d => 0 < Beta_alpha d /\ 0 < Beta_beta d) (fun _ => True).
Proof. exact @negative_binomial_mean_calibrated. Qed.

Print Assumptions C77_negative_binomial_beta_mean.

(** C77: poisson_gamma and its predictive of one unit *)
Theorem C77_poisson_gamma :
  calibrated over_nat (fun d => pdf (Gamma_dist d))
    (fun d x => Ok (poisson_gamma (INR x) 1 d))
    (fun d x => Ok (pmf (NegativeBinomial_dist (poisson_gamma_predictive d 1)) (Z.of_nat x)))
    (fun lam => 0 < lam) (fun d => 0 < Gamma_alpha d /\ 0 < Gamma_beta d) (fun _ => True).
Proof. exact @poisson_calibrated. Qed.

Example C77_poisson_case : (0 < Gamma_alpha (mkGamma 2 3) /\ 0 < Gamma_beta (mkGamma 2 3)) /\ 0 < 5.
Proof. simpl; lra. Qed.

Print Assumptions C77_poisson_gamma.

(** C77: the mean of the posterior of poisson_gamma *)
Theorem C77_poisson_gamma_mean :
  mean_calibrated over_nat Fpos0 Finf (fun d => pdf (Gamma_dist d))
    (fun d x => Ok (poisson_gamma (INR x) 1 d))
    (fun d x => Ok (pmf (NegativeBinomial_dist (poisson_gamma_predictive d 1)) (Z.of_nat x)))
    (fun d => 0 < Gamma_alpha d /\ 0 < Gamma_beta d) (fun _ => True).
Proof. exact @poisson_mean_calibrated. Qed.

Print Assumptions C77_poisson_gamma_mean.

(** C77: gamma_known_shape and its predictive *)
Theorem C77_gamma_known_shape :
  forall alpha,
  0 < alpha ->
  calibrated (over_reals Fpos0 Finf) (fun d => pdf (Gamma_dist d))
    (fun d x => Ok (gamma_known_shape x 1 alpha d))
    (fun d x => Ok (pdf (CompoundGamma_dist (gamma_known_shape_predictive d alpha)) x))
    (fun rate => 0 < rate) (fun d => 0 < Gamma_alpha d /\ 0 < Gamma_beta d) (fun x => 0 < x).
Proof. exact @gamma_known_shape_calibrated. Qed.

Example C77_gamma_case : 0 < 2 /\ (0 < Gamma_alpha (mkGamma 3 4) /\ 0 < Gamma_beta (mkGamma 3 4)) /\ 0 < 5.
Proof. simpl; lra. Qed.

Print Assumptions C77_gamma_known_shape.

(** C77: the mean of the posterior of gamma_known_shape *)
Theorem C77_gamma_known_shape_mean :
  forall alpha,
  0 < alpha ->
  mean_calibrated (over_reals Fpos0 Finf) Fpos0 Finf (fun d => pdf (Gamma_dist d))
    (fun d x => Ok (gamma_known_shape x 1 alpha d))
    (fun d x => Ok (pdf (CompoundGamma_dist (gamma_known_shape_predictive d alpha)) x))
    (fun d => 0 < Gamma_alpha d /\ 0 < Gamma_beta d) (fun x => 0 < x).
Proof. exact @gamma_known_shape_mean_calibrated. Qed.

Print Assumptions C77_gamma_known_shape_mean.

(** C77: normal_known_variance and its predictive *)
Theorem C77_normal_known_variance :
  forall var,
  0 < var ->
  calibrated (over_reals Fminf Finf) (fun d => pdf (Normal_dist d))
    (fun d x => Ok (normal_known_variance x 1 var d))
    (fun d x => Ok (pdf (Normal_dist (normal_known_variance_predictive var d)) x))
    anywhere (fun d => 0 < Normal_sigma d) (fun _ => True).
Proof. exact @normal_known_variance_calibrated. Qed.

Example C77_normal_case : 0 < 16 /\ 0 < Normal_sigma (mkNormal 1 3).
Proof. simpl; lra. Qed.

Print Assumptions C77_normal_known_variance.

(** C77: the mean of the posterior of normal_known_variance *)
Theorem C77_normal_known_variance_mean :
  forall var,
  0 < var ->
  mean_calibrated (over_reals Fminf Finf) Fminf Finf (fun d => pdf (Normal_dist d))
    (fun d x => Ok (normal_known_variance x 1 var d))
    (fun d x => Ok (pdf (Normal_dist (normal_known_variance_predictive var d)) x))
    (fun d => 0 < Normal_sigma d) (fun _ => True).
Proof. exact @normal_known_variance_mean_calibrated. Qed.

Print Assumptions C77_normal_known_variance_mean.

(** C77: normal_known_precision and its predictive *)
Theorem C77_normal_known_precision :
  forall precision,
  0 < precision ->
  calibrated (over_reals Fminf Finf) (fun d => pdf (Normal_dist d))
    (fun d x => Ok (normal_known_precision x 1 precision d))
    (fun d x => Ok (pdf (Normal_dist (normal_known_precision_predictive precision d)) x))
    anywhere (fun d => 0 < Normal_sigma d) (fun _ => True).
Proof. exact @normal_known_precision_calibrated. Qed.

Example C77_precision_case : 0 < / 16 /\ 0 < Normal_sigma (mkNormal 1 3).
Proof. simpl; lra. Qed.

Print Assumptions C77_normal_known_precision.

(** C77: the mean of the posterior of normal_known_precision *)
Theorem C77_normal_known_precision_mean :
  forall precision,
  0 < precision ->
  mean_calibrated (over_reals Fminf Finf) Fminf Finf (fun d => pdf (Normal_dist d))
    (fun d x => Ok (normal_known_precision x 1 precision d))
    (fun d x => Ok (pdf (Normal_dist (normal_known_precision_predictive precision d)) x))
    (fun d => 0 < Normal_sigma d) (fun _ => True).
Proof. exact @normal_known_precision_mean_calibrated. Qed.

Print Assumptions C77_normal_known_precision_mean.

(** C77: normal_known_mean and its predictive, for both families of priors *)
Theorem C77_normal_known_mean :
  forall mu,
  calibrated (over_reals Fminf Finf) (fun d => pdf (variance_dist d))
    (fun d x => Ok (normal_known_mean x (x ^ 2) 1 mu d))
    (fun d x => Ok (pdf (StudentT_dist (normal_known_mean_predictive mu d)) x))
    (fun v => 0 < v) variance_ok (fun _ => True).
Proof. exact @normal_known_mean_calibrated. Qed.

Example C77_known_mean_case : variance_ok (VSICS (mkScaledInverseChiSquared 4 2)) /\ variance_ok (VIG (mkInverseGamma 2 4)) /\ 0 < 3.
Proof. simpl; lra. Qed.

Print Assumptions C77_normal_known_mean.

(** C77: the mean of the posterior of normal_known_mean, where the prior has a mean *)
Theorem C77_normal_known_mean_mean :
  forall mu,
  mean_calibrated (over_reals Fminf Finf) Fpos0 Finf (fun d => pdf (variance_dist d))
    (fun d x => Ok (normal_known_mean x (x ^ 2) 1 mu d))
    (fun d x => Ok (pdf (StudentT_dist (normal_known_mean_predictive mu d)) x))
    (fun d => variance_ok d /\ match d with VIG d => 1 < InverseGamma_alpha d | VSICS d => 2 < ScaledInverseChiSquared_nu d end)
    (fun _ => True).
Proof. exact @normal_known_mean_mean_calibrated. Qed.

Example C77_known_mean_mean_case : variance_ok (VIG (mkInverseGamma 2 4)) /\ 1 < InverseGamma_alpha (mkInverseGamma 2 4).
Proof. simpl; lra. Qed.

Print Assumptions C77_normal_known_mean_mean.

(** C77: normal and its predictive, for both families of priors (both parameters at once) *)
Theorem C77_normal :
  forall {M : Type},
  calibrated (over_reals Fminf Finf) (fun (d : NormalPrior R M) p => normal_prior_pdf d (fst p) (snd p))
    (fun d x => normal x (x ^ 2) 1 d)
    (fun d x => let* t := normal_predictive d in Ok (pdf (StudentT_dist t) x))
    (fun p => 0 < snd p) normal_prior_ok (fun _ => True).
Proof. exact @normal_calibrated. Qed.

Example C77_joint_case : normal_prior_ok (PNG (A := R) (M := R) (mkNormalGamma 0 2 3 1)).
Proof. simpl; lra. Qed.

Print Assumptions C77_normal.

(** C77: multinomial_dirichlet and its predictive, for N draws: the sum is over all vectors of counts adding up to N *)
Theorem C77_multinomial_dirichlet :
  forall (n N : nat),
  calibrated (over_list (compositions (S n) N)) (fun d => dirichlet_pdf (alphas n (Dirichlet_alpha d)))
    (fun d x => with_alpha (multinomial_dirichlet (CArr (as_array (map INR x)))) d)
    (fun d x => let P := multinomial_dirichlet_predictive (Some (INR N)) d in
       Ok (dirichlet_multinomial_pmf (alphas n (DirichletMultinomial_alpha P)) (Rnat (DirichletMultinomial_n P)) x))
    (on_simplex n 1) (dirichlet_ok n) (fun x => length x = S n /\ sumN x = N).
Proof. exact @multinomial_calibrated. Qed.

Example C77_multinomial_case :
  dirichlet_ok 1 (mkDirichlet (OVal (CArr (as_array [1; 2])))) /\ on_simplex 1 1 [/ 3; 2 / 3] /\
  compositions 2 2 = [[0; 2]; [1; 1]; [2; 0]]%nat.
Proof.
  split; [|split; [|reflexivity]].
  - eexists. split; [reflexivity|]. split; [reflexivity|]. repeat constructor; simpl; lra.
  - split; [reflexivity|]. split; [repeat constructor; lra|]. simpl. lra.
Qed.

Print Assumptions C77_multinomial_dirichlet.

(** C77: categorical_dirichlet and its predictive *)
Theorem C77_categorical_dirichlet :
  forall (n : nat),
  calibrated (up_to n) (fun d => dirichlet_pdf (alphas n (Dirichlet_alpha d)))
    (fun d k => with_alpha (categorical_dirichlet (CArr (as_array (map INR (counts n [k]))))) d)
    (fun d k => let P := categorical_dirichlet_predictive None d in
       Ok (dirichlet_multinomial_pmf (alphas n (DirichletMultinomial_alpha P)) (Rnat (DirichletMultinomial_n P)) (counts n [k])))
    (on_simplex n 1) (dirichlet_ok n) (fun k => (k <= n)%nat).
Proof. exact @categorical_calibrated. Qed.

Example C77_categorical_case :
  dirichlet_ok 2 (mkDirichlet (OVal (CArr (as_array [1; 2; 3])))) /\ on_simplex 2 1 [/ 4; / 4; / 2] /\ (2 <= 2)%nat.
Proof.
  split; [|split; [|lia]].
  - eexists. split; [reflexivity|]. split; [reflexivity|]. repeat constructor; simpl; lra.
  - split; [reflexivity|]. split; [repeat constructor; lra|]. simpl. lra.
Qed.

Print Assumptions C77_categorical_dirichlet.
