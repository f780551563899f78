(** When a call with Python numbers returns instead of raising (or leaving the reals). *)

From Coq Require Import Reals List.
From Verif Require Import Model.Table.
Import ListNotations.
Open Scope R_scope.

(** Number of numeric arguments, prior fields included. *)
Definition arity (f : fn) : nat :=
  match f with
  | F_bernoulli_beta_predictive | F_geometric_beta_predictive _ | F_exponential_gamma_predictive
  | F_Beta_from_mean | F_Beta_from_successes_and_failures | F_Gamma_from_occurrences_in_intervals
  | F_Normal_from_mean_and_variance | F_Normal_from_mean_and_precision | F_sics_from_inverse_gamma
  | F_sics_to_inverse_gamma | F_Exponential_mul | F_Poisson_mul | F_Poisson_add => 2
  | F_binomial_beta_predictive | F_bernoulli_beta | F_negative_binomial_beta_predictive | F_poisson_gamma_predictive
  | F_gamma_known_shape_predictive | F_normal_known_variance_predictive | F_normal_known_precision_predictive
  | F_normal_known_mean_predictive_ig | F_normal_known_mean_predictive_sics
  | F_Gamma_mul | F_NegativeBinomial_mul | F_Normal_mul => 3
  | F_binomial_beta | F_geometric_beta _ | F_poisson_gamma | F_exponential_gamma | F_normal_predictive_nig
  | F_normal_predictive_ng | F_uniform_pareto | F_von_mises_known_direction | F_weibull => 4
  | F_negative_binomial_beta | F_hypergeometric_beta_binomial | F_gamma_known_shape | F_inverse_gamma_known_rate
  | F_normal_known_variance | F_normal_known_precision | F_pareto_gamma => 5
  | F_normal_known_mean_ig | F_normal_known_mean_sics | F_gamma_known_rate | F_beta | F_von_mises_known_concentration => 6
  | F_normal_nig | F_normal_ng | F_log_normal_nig | F_log_normal_ng | F_gamma => 7
  end.

(** The exact condition on the numbers. *)
Definition defined (f : fn) (args : list R) : Prop :=
  match f, args with
  | F_poisson_gamma_predictive, [a; b; n] => b <> -1
  | F_normal_known_variance, [x; n; var; mu; sigma] => sigma <> 0 /\ var <> 0 /\ 0 < 1 / sigma ^ 2 + n / var
  | F_normal_known_variance_predictive, [var; mu; sigma] => 0 <= var + sigma ^ 2
  | F_normal_known_precision, [x; n; precision; mu; sigma] =>
      sigma <> 0 /\ precision <> 0 /\ 0 < 1 / sigma ^ 2 + n * precision
  | F_normal_known_precision_predictive, [precision; mu; sigma] => precision <> 0 /\ 0 <= 1 / precision + sigma ^ 2
  | F_normal_known_mean_sics, [x; x2; n; mu; nu; s2] => nu + n <> 0
  | F_normal_known_mean_predictive_ig, [mu; a; b] => a <> 0 /\ 0 <= b / a
  | F_normal_known_mean_predictive_sics, [mu; nu; s2] => nu <> 0 /\ 0 <= s2
  | F_normal_nig, [x; x2; n; mu; a; b; nu] | F_log_normal_nig, [x; x2; n; mu; a; b; nu] => n <> 0 /\ nu + n <> 0
  | F_normal_ng, [x; x2; n; mu; lam; a; b] | F_log_normal_ng, [x; x2; n; mu; lam; a; b] => n <> 0 /\ lam + n <> 0
  | F_normal_predictive_nig, [mu; a; b; nu] | F_normal_predictive_ng, [mu; nu; a; b] =>
      nu <> 0 /\ a <> 0 /\ 0 <= b * (nu + 1) / (nu * a)
  | F_pareto_gamma, [n; lx; x_m; a; b] => 0 < x_m
  | F_Beta_from_mean, [mean; alpha] => mean <> 0
  | F_Normal_from_mean_and_variance, [m; v] => 0 <= v
  | F_Normal_from_mean_and_precision, [m; p] => 0 < p
  | F_sics_from_inverse_gamma, [a; b] => a <> 0
  | F_Exponential_mul, [lam; other] => lam <> 0
  | F_Normal_mul, [mu; sigma; other] => 0 <= sigma ^ 2 * other
  | _, _ => True
  end.
