(** C84: with unlimited data the posterior concentrates and the predictive tends to the sampling distribution. *)

From Coq Require Import Reals Lra Lia ZArith.
From Coquelicot Require Import Coquelicot.
From Verif Require Import Model.Num Model.Py Model.NdArray Model.Dists Model.ScipyDist Model.Models.
From Verif Require Import Spec.Special Spec.Densities Spec.Bayes Spec.Joint Spec.Moments Spec.Normalised Spec.Limits.
From Verif Require Import Analysis.Improper Analysis.GammaBeta Analysis.GammaFacts.
From Verif Require Import Proofs.Pdfs Proofs.Conj Proofs.Predictive Proofs.Joint Proofs.LimitModels Proofs.LimitPredictive Proofs.LimitJoint Proofs.LimitNormal Proofs.LimitRefuted.
From Coq Require Import List.
Import ListNotations.
Open Scope R_scope.

(** Every theorem is about streams of summaries: [n N] observations with total [x N] at stage N. *)

(** One stream for the examples: N + 1 observations, average c. *)
Example C84_stream : forall c, 0 <= c ->
  (forall N, 0 <= INR (N + 1)) /\ is_lim_seq (fun N => INR (N + 1)) p_infty /\ (forall N, 0 <= c * INR (N + 1)) /\
  is_lim_seq (fun N => c * INR (N + 1) / INR (N + 1)) c.
Proof.
  intros c Hc. split; [intros N; apply pos_INR|]. split; [exact n_ex_inf|]. split; [|exact (ratio_ex c)].
  intros N. apply Rmult_le_pos; [exact Hc|apply pos_INR].
Qed.

(** C84: the posterior of binomial_beta settles on the frequency of successes *)
Theorem C84_binomial_beta_concentrates :
  forall (n x : nat -> R) (prior : Beta R) (p : R),
  (forall N, 0 <= n N) -> is_lim_seq n p_infty -> (forall N, 0 <= x N) -> 0 < Beta_alpha prior -> 0 < Beta_beta prior ->
  (forall N, x N <= n N) -> is_lim_seq (fun N => x N / n N) p ->
  concentrates Fpos0 Fone unit_interval (fun N => pdf (Beta_dist (binomial_beta (n N) (x N) prior))) p.
Proof. intros n x prior p Hn Hi Hx. exact (binomial_beta_concentrates n x Hn Hi Hx prior p). Qed.

Example C84_binomial_beta_concentrates_case : (0 < Beta_alpha (mkBeta 1 2) /\ 0 < Beta_beta (mkBeta 1 2)) /\ forall N, / 3 * INR (N + 1) <= INR (N + 1).
Proof. split; [simpl; lra|]. intros N. pose proof (pos_INR (N + 1)). lra. Qed.

Print Assumptions C84_binomial_beta_concentrates.

(** C84: its predictive tends to the binomial distribution *)
Theorem C84_binomial_beta_predictive :
  forall (n x : nat -> R) (prior : Beta R) (p : R) (m k : nat),
  (forall N, 0 <= n N) -> is_lim_seq n p_infty -> (forall N, 0 <= x N) -> 0 < Beta_alpha prior -> 0 < Beta_beta prior ->
  (forall N, x N <= n N) -> is_lim_seq (fun N => x N / n N) p -> (k <= m)%nat ->
  is_lim_seq (fun N => pmf (BetaBinomial_dist (binomial_beta_predictive (INR m) (binomial_beta (n N) (x N) prior))) (Z.of_nat k))
    (pmf (Binomial_dist (mkBinomial (INR m) p)) (Z.of_nat k)).
Proof. intros n x prior p m k Hn Hi Hx. exact (binomial_beta_predictive_limit n x Hn Hi Hx prior p m k). Qed.

Example C84_binomial_beta_predictive_case : pmf (Binomial_dist (mkBinomial (INR 2) (/ 3))) (Z.of_nat 1) = 4 / 9.
Proof. change (pmf (S_binom (INR 2) (/ 3)) (Z.of_nat 1) = 4 / 9). rewrite binom_pmf by lia. unfold choose. simpl. field. Qed.

Print Assumptions C84_binomial_beta_predictive.

(** C84: the posterior of negative_binomial_beta settles on the success probability whose mean count is observed *)
Theorem C84_negative_binomial_beta_concentrates :
  forall (n x : nat -> R) (prior : Beta R) (r p : R),
  (forall N, 0 <= n N) -> is_lim_seq n p_infty -> (forall N, 0 <= x N) -> 0 < Beta_alpha prior -> 0 < Beta_beta prior ->
  0 < r -> 0 < p <= 1 -> is_lim_seq (fun N => x N / n N) (r * (1 - p) / p) ->
  concentrates Fpos0 Fone unit_interval (fun N => pdf (Beta_dist (negative_binomial_beta r (n N) (x N) prior))) p.
Proof. intros n x prior r p Hn Hi Hx. exact (negative_binomial_beta_concentrates n x Hn Hi Hx prior r p). Qed.

Example C84_negative_binomial_beta_concentrates_case : 0 <= 3 * (1 - / 2) / / 2 /\ 0 < 3 /\ 0 < / 2 <= 1.
Proof. lra. Qed.

Print Assumptions C84_negative_binomial_beta_concentrates.

(** C84: its predictive tends to the negative binomial distribution, for every scipy version that has it *)
Theorem C84_negative_binomial_beta_predictive :
  forall (n x : nat -> R) (prior : Beta R) (r p : R) (rel : list nat) (dists : nat -> frozen R) (k : nat),
  (forall N, 0 <= n N) -> is_lim_seq n p_infty -> (forall N, 0 <= x N) -> 0 < Beta_alpha prior -> 0 < Beta_beta prior ->
  0 < r -> 0 < p <= 1 -> is_lim_seq (fun N => x N / n N) (r * (1 - p) / p) ->
  (forall N, BetaNegativeBinomial_dist rel (negative_binomial_beta_predictive r (negative_binomial_beta r (n N) (x N) prior)) = Ok (dists N)) ->
  is_lim_seq (fun N => pmf (dists N) (Z.of_nat k)) (pmf (NegativeBinomial_dist (mkNegativeBinomial r p)) (Z.of_nat k)).
Proof. intros n x prior r p rel dists k Hn Hi Hx. exact (negative_binomial_beta_predictive_limit n x Hn Hi Hx prior r p rel dists k). Qed.

Example C84_negative_binomial_beta_predictive_case : exists dists, forall N, BetaNegativeBinomial_dist [1; 12; 0]%nat (negative_binomial_beta_predictive 3 (negative_binomial_beta 3 (INR (N + 1)) (3 * INR (N + 1)) (mkBeta 1 1))) = Ok (dists N).
Proof. eexists. intros N. reflexivity. Qed.

Print Assumptions C84_negative_binomial_beta_predictive.

(** C84: the posterior of geometric_beta settles on the success probability whose mean is observed, under both conventions *)
Theorem C84_geometric_beta_concentrates :
  forall (n x : nat -> R) (prior : Beta R) (one_start : bool) (p : R),
  (forall N, 0 <= n N) -> is_lim_seq n p_infty -> (forall N, 0 <= x N) -> 0 < Beta_alpha prior -> 0 < Beta_beta prior -> 0 < p <= 1 ->
  (forall N, (if one_start then n N else 0) <= x N) ->
  is_lim_seq (fun N => x N / n N) (if one_start then / p else / p - 1) ->
  concentrates Fpos0 Fone unit_interval (fun N => pdf (Beta_dist (geometric_beta (x N) (n N) prior one_start))) p.
Proof. intros n x prior one_start p Hn Hi Hx. exact (geometric_beta_concentrates n x Hn Hi Hx prior one_start p). Qed.

Example C84_geometric_beta_concentrates_case : forall N, INR (N + 1) <= / / 2 * INR (N + 1).
Proof. intros N. pose proof (pos_INR (N + 1)). lra. Qed.

Print Assumptions C84_geometric_beta_concentrates.

(** C84: but its predictive does not tend to the geometric distribution *)
Theorem C84_geometric_beta_predictive_refuted :
  ~ forall (n x : nat -> R) (prior : Beta R) (one_start : bool) (p : R) (z : Z),
  (forall N, 0 <= n N) -> is_lim_seq n p_infty -> (forall N, 0 <= x N) -> 0 < Beta_alpha prior -> 0 < Beta_beta prior -> 0 < p <= 1 ->
  (forall N, (if one_start then n N else 0) <= x N) ->
  is_lim_seq (fun N => x N / n N) (if one_start then / p else / p - 1) -> ((if one_start then 1 else 0) <= z)%Z ->
  is_lim_seq (fun N => pmf (BetaGeometric_dist (geometric_beta_predictive (geometric_beta (x N) (n N) prior one_start) one_start)) z)
    (pmf (Geometric_dist (mkGeometric p one_start)) z).
Proof. exact geometric_limit_refuted. Qed.

Print Assumptions C84_geometric_beta_predictive_refuted.

(** C84: it tends to the geometric distribution moved down by one *)
Theorem C84_geometric_beta_predictive_shifted_partial :
  forall (n x : nat -> R) (prior : Beta R) (one_start : bool) (p : R) (z : Z),
  (forall N, 0 <= n N) -> is_lim_seq n p_infty -> (forall N, 0 <= x N) -> 0 < Beta_alpha prior -> 0 < Beta_beta prior -> 0 < p <= 1 ->
  (forall N, (if one_start then n N else 0) <= x N) ->
  is_lim_seq (fun N => x N / n N) (if one_start then / p else / p - 1) -> ((if one_start then 0 else -1) <= z)%Z ->
  is_lim_seq (fun N => pmf (BetaGeometric_dist (geometric_beta_predictive (geometric_beta (x N) (n N) prior one_start) one_start)) z)
    (pmf (Geometric_dist (mkGeometric p one_start)) (z + 1)).
Proof. intros n x prior one_start p z Hn Hi Hx. exact (geometric_beta_predictive_limit n x Hn Hi Hx prior one_start p z). Qed.

Example C84_geometric_beta_predictive_shifted_partial_case : (0 < / 2 <= 1) /\ ((if true then 0 else -1) <= 1)%Z.
Proof. split; [lra|lia]. Qed.

Print Assumptions C84_geometric_beta_predictive_shifted_partial.

(** C84: the posterior of poisson_gamma settles on the mean count *)
Theorem C84_poisson_gamma_concentrates :
  forall (n x : nat -> R) (prior : Gamma R) (lam : R),
  (forall N, 0 <= n N) -> is_lim_seq n p_infty -> (forall N, 0 <= x N) -> 0 < Gamma_alpha prior -> 0 < Gamma_beta prior ->
  is_lim_seq (fun N => x N / n N) lam ->
  concentrates Fpos0 Finf positive (fun N => pdf (Gamma_dist (poisson_gamma (x N) (n N) prior))) lam.
Proof. intros n x prior l Hn Hi Hx. exact (poisson_gamma_concentrates n x Hn Hi Hx prior l). Qed.

Example C84_poisson_gamma_concentrates_case : 0 < Gamma_alpha (mkGamma 2 3) /\ 0 < Gamma_beta (mkGamma 2 3) /\ is_lim_seq (fun N => 5 * INR (N + 1) / INR (N + 1)) 5.
Proof. split; [simpl; lra|]. split; [simpl; lra|]. exact (ratio_ex 5). Qed.

Print Assumptions C84_poisson_gamma_concentrates.

(** C84: its predictive tends to the Poisson distribution *)
Theorem C84_poisson_gamma_predictive :
  forall (n x : nat -> R) (prior : Gamma R) (lam : R) (k : nat),
  (forall N, 0 <= n N) -> is_lim_seq n p_infty -> (forall N, 0 <= x N) -> 0 < Gamma_alpha prior -> 0 < Gamma_beta prior ->
  is_lim_seq (fun N => x N / n N) lam ->
  is_lim_seq (fun N => pmf (NegativeBinomial_dist (poisson_gamma_predictive (poisson_gamma (x N) (n N) prior) 1)) (Z.of_nat k))
    (pmf (Poisson_dist (mkPoisson lam)) (Z.of_nat k)).
Proof. intros n x prior l k Hn Hi Hx. exact (poisson_gamma_predictive_limit n x Hn Hi Hx prior l k). Qed.

Example C84_poisson_gamma_predictive_case : pmf (Poisson_dist (mkPoisson 5)) (Z.of_nat 2) = exp (- 5) * 25 / 2.
Proof. change (pmf (S_poisson 5) (Z.of_nat 2) = exp (- 5) * 25 / 2). rewrite poisson_pmf. replace (INR (fact 2)) with 2 by (simpl; lra). replace (exp (- 5)) with (exp (- (5))) by (f_equal; lra). field. Qed.

Print Assumptions C84_poisson_gamma_predictive.

(** C84: the posterior of gamma_known_shape settles on the rate with the observed mean *)
Theorem C84_gamma_known_shape_concentrates :
  forall (n x : nat -> R) (prior : Gamma R) (alpha rate : R),
  (forall N, 0 <= n N) -> is_lim_seq n p_infty -> (forall N, 0 <= x N) -> 0 < Gamma_alpha prior -> 0 < Gamma_beta prior ->
  0 < alpha -> 0 < rate -> is_lim_seq (fun N => x N / n N) (alpha / rate) ->
  concentrates Fpos0 Finf positive (fun N => pdf (Gamma_dist (gamma_known_shape (x N) (n N) alpha prior))) rate.
Proof. intros n x prior al r Hn Hi Hx. exact (gamma_known_shape_concentrates n x Hn Hi Hx prior al r). Qed.

Example C84_gamma_known_shape_concentrates_case : 0 < 2 /\ 0 < 4 /\ is_lim_seq (fun N => 2 / 4 * INR (N + 1) / INR (N + 1)) (2 / 4).
Proof. split; [lra|]. split; [lra|]. exact (ratio_ex (2 / 4)). Qed.

Print Assumptions C84_gamma_known_shape_concentrates.

(** C84: the posterior of inverse_gamma_known_rate settles on the rate with the observed mean reciprocal *)
Theorem C84_inverse_gamma_known_rate_concentrates :
  forall (n x : nat -> R) (prior : Gamma R) (alpha rate : R),
  (forall N, 0 <= n N) -> is_lim_seq n p_infty -> (forall N, 0 <= x N) -> 0 < Gamma_alpha prior -> 0 < Gamma_beta prior ->
  0 < alpha -> 0 < rate -> is_lim_seq (fun N => x N / n N) (alpha / rate) ->
  concentrates Fpos0 Finf positive (fun N => pdf (Gamma_dist (inverse_gamma_known_rate (x N) (n N) alpha prior))) rate.
Proof. intros n x prior al r Hn Hi Hx. exact (inverse_gamma_known_rate_concentrates n x Hn Hi Hx prior al r). Qed.

Example C84_inverse_gamma_known_rate_concentrates_case : 0 < 2 /\ 0 < 4 /\ is_lim_seq (fun N => 2 / 4 * INR (N + 1) / INR (N + 1)) (2 / 4).
Proof. split; [lra|]. split; [lra|]. exact (ratio_ex (2 / 4)). Qed.

Print Assumptions C84_inverse_gamma_known_rate_concentrates.

(** C84: the predictive tends to the gamma distribution *)
Theorem C84_gamma_known_shape_predictive :
  forall (n x : nat -> R) (prior : Gamma R) (alpha rate y : R),
  (forall N, 0 <= n N) -> is_lim_seq n p_infty -> (forall N, 0 <= x N) -> 0 < Gamma_alpha prior -> 0 < Gamma_beta prior ->
  0 < alpha -> 0 < rate -> 0 < y -> is_lim_seq (fun N => x N / n N) (alpha / rate) ->
  is_lim_seq (fun N => pdf (CompoundGamma_dist (gamma_known_shape_predictive (gamma_known_shape (x N) (n N) alpha prior) alpha)) y)
    (pdf (Gamma_dist (mkGamma alpha rate)) y).
Proof. intros n x prior al r y Hn Hi Hx. exact (gamma_known_shape_predictive_limit n x Hn Hi Hx prior al r y). Qed.

Print Assumptions C84_gamma_known_shape_predictive.

(** C84: exponential_gamma does not settle on the rate *)
Theorem C84_exponential_gamma_refuted :
  ~ forall (n x : nat -> R) (prior : Gamma R) (rate : R),
  (forall N, 0 <= n N) -> is_lim_seq n p_infty -> (forall N, 0 <= x N) -> 0 < Gamma_alpha prior -> 0 < Gamma_beta prior -> 0 < rate ->
  is_lim_seq (fun N => x N / n N) (/ rate) ->
  concentrates Fpos0 Finf positive (fun N => pdf (Gamma_dist (exponential_gamma (x N) (n N) prior))) rate.
Proof. exact exponential_gamma_limit_refuted. Qed.

Print Assumptions C84_exponential_gamma_refuted.

(** C84: it settles on the mean, the reciprocal of the rate *)
Theorem C84_exponential_gamma_partial :
  forall (n x : nat -> R) (prior : Gamma R) (mean : R),
  (forall N, 0 <= n N) -> is_lim_seq n p_infty -> (forall N, 0 <= x N) -> 0 < Gamma_alpha prior -> 0 < Gamma_beta prior ->
  is_lim_seq (fun N => x N / n N) mean ->
  concentrates Fpos0 Finf positive (fun N => pdf (Gamma_dist (exponential_gamma (x N) (n N) prior))) mean.
Proof. intros n x prior l Hn Hi Hx. exact (exponential_gamma_concentrates n x Hn Hi Hx prior l). Qed.

Example C84_exponential_gamma_partial_case : is_lim_seq (fun N => / 2 * INR (N + 1) / INR (N + 1)) (/ 2).
Proof. exact (ratio_ex (/ 2)). Qed.

Print Assumptions C84_exponential_gamma_partial.

(** C84: the posterior of weibull_inverse_gamma_known_shape settles on the mean of the powered observations *)
Theorem C84_weibull_concentrates :
  forall (n x : nat -> R) (prior : InverseGamma R) (theta : R),
  (forall N, 0 <= n N) -> is_lim_seq n p_infty -> (forall N, 0 <= x N) -> 0 < InverseGamma_alpha prior -> 0 < InverseGamma_beta prior -> 0 < theta ->
  is_lim_seq (fun N => x N / n N) theta ->
  concentrates Fpos0 Finf positive (fun N => pdf (InverseGamma_dist (weibull_inverse_gamma_known_shape (n N) (x N) prior))) theta.
Proof. intros n x prior l Hn Hi Hx. exact (weibull_concentrates n x Hn Hi Hx prior l). Qed.

Example C84_weibull_concentrates_case : 0 < InverseGamma_alpha (mkInverseGamma 2 3) /\ 0 < InverseGamma_beta (mkInverseGamma 2 3) /\ 0 < 4.
Proof. simpl. lra. Qed.

Print Assumptions C84_weibull_concentrates.

(** C84: the posterior of pareto_gamma settles on the shape *)
Theorem C84_pareto_gamma_concentrates :
  forall (n lx : nat -> R) (prior : Gamma R) (x_m shape : R),
  (forall N, 0 <= n N) -> is_lim_seq n p_infty -> (forall N, n N * ln x_m <= lx N) ->
  0 < Gamma_alpha prior -> 0 < Gamma_beta prior -> 0 < shape ->
  is_lim_seq (fun N => (lx N - n N * ln x_m) / n N) (/ shape) ->
  concentrates Fpos0 Finf positive (fun N => pdf (Gamma_dist (pareto_gamma ln (n N) (lx N) x_m prior))) shape.
Proof. exact pareto_gamma_concentrates. Qed.

Example C84_pareto_gamma_concentrates_case : (forall N, INR (N + 1) * ln 1 <= / 3 * INR (N + 1)) /\ is_lim_seq (fun N => (/ 3 * INR (N + 1) - INR (N + 1) * ln 1) / INR (N + 1)) (/ 3).
Proof. rewrite ln_1. split; [intros N; pose proof (pos_INR (N + 1)); lra|]. apply is_lim_seq_ext with (fun N => / 3 * INR (N + 1) / INR (N + 1)); [|exact (ratio_ex (/ 3))]. intros N. now rewrite Rmult_0_r, Rminus_0_r. Qed.

Print Assumptions C84_pareto_gamma_concentrates.

(** C84: the posterior of uniform_pareto settles on the end of the interval *)
Theorem C84_uniform_pareto_concentrates :
  forall (n xmax : nat -> R) (prior : Pareto R) (theta : R),
  (forall N, 0 <= n N) -> is_lim_seq n p_infty -> 0 < Pareto_x_m prior -> 0 < Pareto_alpha prior -> Pareto_x_m prior <= theta ->
  is_lim_seq xmax theta ->
  concentrates Fpos0 Finf positive (fun N => pdf (Pareto_dist (uniform_pareto Rmax (xmax N) (n N) prior))) theta.
Proof. exact uniform_pareto_concentrates. Qed.

Example C84_uniform_pareto_concentrates_case : 0 < Pareto_x_m (mkPareto 1 2) /\ 0 < Pareto_alpha (mkPareto 1 2) /\ Pareto_x_m (mkPareto 1 2) <= 3 /\ is_lim_seq (fun _ => 3) 3.
Proof. simpl. repeat split; try lra. apply is_lim_seq_const. Qed.

Print Assumptions C84_uniform_pareto_concentrates.

(** C84: the posterior of normal_known_variance settles on the mean *)
Theorem C84_normal_known_variance_concentrates :
  forall (n x : nat -> R) (prior : Normal R) (var mu : R),
  (forall N, 0 <= n N) -> is_lim_seq n p_infty -> 0 < Normal_sigma prior -> 0 < var ->
  is_lim_seq (fun N => x N / n N) mu ->
  concentrates Fminf Finf any_real (fun N => pdf (Normal_dist (normal_known_variance (x N) (n N) var prior))) mu.
Proof. exact normal_known_variance_concentrates. Qed.

Example C84_normal_known_variance_concentrates_case : 0 < Normal_sigma (mkNormal 0 2) /\ 0 < 4 /\ is_lim_seq (fun N => - (7) * INR (N + 1) / INR (N + 1)) (- (7)).
Proof. split; [simpl; lra|]. split; [lra|]. exact (ratio_ex (- (7))). Qed.

Print Assumptions C84_normal_known_variance_concentrates.

(** C84: the predictive tends to the normal distribution of the data *)
Theorem C84_normal_known_variance_predictive :
  forall (n x : nat -> R) (prior : Normal R) (var mu y : R),
  (forall N, 0 <= n N) -> is_lim_seq n p_infty -> 0 < Normal_sigma prior -> 0 < var ->
  is_lim_seq (fun N => x N / n N) mu ->
  is_lim_seq (fun N => pdf (Normal_dist (normal_known_variance_predictive var (normal_known_variance (x N) (n N) var prior))) y)
    (pdf (Normal_dist (mkNormal mu (sqrt var))) y).
Proof. exact normal_known_variance_predictive_limit. Qed.

Print Assumptions C84_normal_known_variance_predictive.

(** C84: the posterior of normal_known_precision settles on the mean *)
Theorem C84_normal_known_precision_concentrates :
  forall (n x : nat -> R) (prior : Normal R) (precision mu : R),
  (forall N, 0 <= n N) -> is_lim_seq n p_infty -> 0 < Normal_sigma prior -> 0 < precision ->
  is_lim_seq (fun N => x N / n N) mu ->
  concentrates Fminf Finf any_real (fun N => pdf (Normal_dist (normal_known_precision (x N) (n N) precision prior))) mu.
Proof. exact normal_known_precision_concentrates. Qed.

Example C84_normal_known_precision_concentrates_case : 0 < Normal_sigma (mkNormal 0 2) /\ 0 < 4 /\ is_lim_seq (fun N => - (7) * INR (N + 1) / INR (N + 1)) (- (7)).
Proof. split; [simpl; lra|]. split; [lra|]. exact (ratio_ex (- (7))). Qed.

Print Assumptions C84_normal_known_precision_concentrates.

(** C84: the predictive tends to the normal distribution of the data *)
Theorem C84_normal_known_precision_predictive :
  forall (n x : nat -> R) (prior : Normal R) (precision mu y : R),
  (forall N, 0 <= n N) -> is_lim_seq n p_infty -> 0 < Normal_sigma prior -> 0 < precision ->
  is_lim_seq (fun N => x N / n N) mu ->
  is_lim_seq (fun N => pdf (Normal_dist (normal_known_precision_predictive precision (normal_known_precision (x N) (n N) precision prior))) y)
    (pdf (Normal_dist (mkNormal mu (/ sqrt precision))) y).
Proof. exact normal_known_precision_predictive_limit. Qed.

Print Assumptions C84_normal_known_precision_predictive.

(** C84: the posterior of normal_known_mean settles on the variance, for both prior families *)
Theorem C84_normal_known_mean_concentrates :
  forall (n x x2 : nat -> R) (prior : VariancePrior R) (mu v : R),
  (forall N, 0 <= n N) -> is_lim_seq n p_infty -> variance_ok prior -> 0 < v ->
  (forall N, 0 <= x2 N - 2 * mu * x N + n N * mu ^ 2) ->
  is_lim_seq (fun N => (x2 N - 2 * mu * x N + n N * mu ^ 2) / n N) v ->
  concentrates Fpos0 Finf positive (fun N => pdf (variance_dist (normal_known_mean (x N) (x2 N) (n N) mu prior))) v.
Proof. exact normal_known_mean_concentrates. Qed.

Example C84_normal_known_mean_concentrates_case : variance_ok (VIG (mkInverseGamma 2 3)) /\ (forall N, 0 <= 5 * INR (N + 1) - 2 * 1 * (1 * INR (N + 1)) + INR (N + 1) * 1 ^ 2) /\
  is_lim_seq (fun N => (5 * INR (N + 1) - 2 * 1 * (1 * INR (N + 1)) + INR (N + 1) * 1 ^ 2) / INR (N + 1)) 4.
Proof. split; [simpl; lra|]. split; [intros N; pose proof (pos_INR (N + 1)); lra|]. apply is_lim_seq_ext with (fun N => 4 * INR (N + 1) / INR (N + 1)); [|exact (ratio_ex 4)]. intros N. f_equal. ring. Qed.

Print Assumptions C84_normal_known_mean_concentrates.

(** C84: the predictive tends to the normal distribution of the data *)
Theorem C84_normal_known_mean_predictive :
  forall (n x x2 : nat -> R) (prior : VariancePrior R) (mu v y : R),
  (forall N, 0 <= n N) -> is_lim_seq n p_infty -> variance_ok prior -> 0 < v ->
  (forall N, 0 <= x2 N - 2 * mu * x N + n N * mu ^ 2) ->
  is_lim_seq (fun N => (x2 N - 2 * mu * x N + n N * mu ^ 2) / n N) v ->
  is_lim_seq (fun N => pdf (StudentT_dist (normal_known_mean_predictive mu (normal_known_mean (x N) (x2 N) (n N) mu prior))) y)
    (pdf (Normal_dist (mkNormal mu (sqrt v))) y).
Proof. exact normal_known_mean_predictive_limit. Qed.

Print Assumptions C84_normal_known_mean_predictive.

(** C84: normal: mean and variance (or precision) together settle on those of the data, and the predictive tends to their normal distribution *)
Theorem C84_normal :
  forall M (n x x2 : nat -> R) (m0 v0 : R) (prior : NormalPrior R M),
  (forall N, 0 < n N) -> is_lim_seq n p_infty -> (forall N, x N ^ 2 <= n N * x2 N) ->
  is_lim_seq (fun N => x N / n N) m0 -> is_lim_seq (fun N => x2 N / n N - (x N / n N) ^ 2) v0 -> 0 < v0 -> normal_prior_ok prior ->
  exists (posts : nat -> NormalPrior R M) (preds : nat -> StudentT R),
    (forall N, normal (x N) (x2 N) (n N) prior = Ok (posts N)) /\ (forall N, normal_predictive (posts N) = Ok (preds N)) /\
    concentrates2 (fun N => normal_prior_pdf (posts N)) m0 (match prior with PNIG _ => v0 | PNG _ => / v0 end) /\
    forall y, is_lim_seq (fun N => pdf (StudentT_dist (preds N)) y) (pdf (Normal_dist (mkNormal m0 (sqrt v0))) y).
Proof. exact @normal_limit. Qed.

Example C84_normal_case : (forall N, (2 * INR (N + 1)) ^ 2 <= INR (N + 1) * (7 * INR (N + 1))) /\
  is_lim_seq (fun N => 7 * INR (N + 1) / INR (N + 1) - (2 * INR (N + 1) / INR (N + 1)) ^ 2) 3 /\
  normal_prior_ok (M := R) (PNG (mkNormalGamma 0 1 2 3)) /\ normal_prior_ok (M := R) (PNIG (mkNormalInverseGamma 0 2 3 None (Some 1))).
Proof. split; [intros N; pose proof (pos_INR (N + 1)); nra|]. split.
  - replace 3 with (7 - 2 * (2 * 1)) at 1 by ring. simpl pow. apply is_lim_seq_minus'; [exact (ratio_ex 7)|].
    apply is_lim_seq_mult'; [exact (ratio_ex 2)|]. apply is_lim_seq_mult'; [exact (ratio_ex 2)|apply is_lim_seq_const].
  - simpl. repeat split; try lra. exists 1. split; [reflexivity|lra]. Qed.

Print Assumptions C84_normal.

(** C84: log_normal: mean and variance (or precision) together settle on those of the data, and the predictive tends to their normal distribution *)
Theorem C84_log_normal :
  forall M (n x x2 : nat -> R) (m0 v0 : R) (prior : NormalPrior R M),
  (forall N, 0 < n N) -> is_lim_seq n p_infty -> (forall N, x N ^ 2 <= n N * x2 N) ->
  is_lim_seq (fun N => x N / n N) m0 -> is_lim_seq (fun N => x2 N / n N - (x N / n N) ^ 2) v0 -> 0 < v0 -> normal_prior_ok prior ->
  exists (posts : nat -> NormalPrior R M) (preds : nat -> StudentT R),
    (forall N, log_normal (x N) (x2 N) (n N) prior = Ok (posts N)) /\ (forall N, normal_predictive (posts N) = Ok (preds N)) /\
    concentrates2 (fun N => normal_prior_pdf (posts N)) m0 (match prior with PNIG _ => v0 | PNG _ => / v0 end) /\
    forall y, is_lim_seq (fun N => pdf (StudentT_dist (preds N)) y) (pdf (Normal_dist (mkNormal m0 (sqrt v0))) y).
Proof. exact @normal_limit. Qed.

Print Assumptions C84_log_normal.
