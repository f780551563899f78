(** The element-wise public functions of /repo/conjugate as one table: a
    function takes the list of its keyword arguments (numbers first, then the
    fields of the prior / distribution, both in declaration order) and returns
    the fields of the result ([dataclasses.asdict], slice.py:8-9), or raises.

    The table contains no logic of its own: every line calls the definition of
    [Model/Models.v] or [Model/Dists.v].  It exists so that statements about
    "every element-wise function" can be made once. *)

From Coq Require Import ZArith Bool List String.
From Verif Require Import Model.Num Model.Py Model.Dists Model.Models.
Import ListNotations.

(** Callables the library receives as arguments (np.log, np.maximum, np.sin,
    np.cos, np.arctan2): models.py:1461, 1510, 1667-1669. *)
Record Ufuncs (A : Type) := mkUfuncs
  { u_ln : A -> A; u_max : A -> A -> A; u_sin : A -> A; u_cos : A -> A; u_arctan2 : A -> A -> A }.
Arguments u_ln {A}. Arguments u_max {A}. Arguments u_sin {A}. Arguments u_cos {A}. Arguments u_arctan2 {A}.
Arguments mkUfuncs {A}.

Inductive fn :=
(* models.py *)
| F_binomial_beta | F_binomial_beta_predictive | F_bernoulli_beta | F_bernoulli_beta_predictive
| F_negative_binomial_beta | F_negative_binomial_beta_predictive | F_hypergeometric_beta_binomial
| F_geometric_beta (one_start : bool) | F_geometric_beta_predictive (one_start : bool)
| F_poisson_gamma | F_poisson_gamma_predictive
| F_exponential_gamma | F_exponential_gamma_predictive
| F_gamma_known_shape | F_gamma_known_shape_predictive | F_inverse_gamma_known_rate
| F_normal_known_variance | F_normal_known_variance_predictive
| F_normal_known_precision | F_normal_known_precision_predictive
| F_normal_known_mean_ig | F_normal_known_mean_sics
| F_normal_known_mean_predictive_ig | F_normal_known_mean_predictive_sics
| F_normal_nig | F_normal_ng | F_normal_predictive_nig | F_normal_predictive_ng
| F_log_normal_nig | F_log_normal_ng
| F_uniform_pareto | F_pareto_gamma | F_gamma | F_gamma_known_rate | F_beta
| F_von_mises_known_concentration | F_von_mises_known_direction | F_weibull
(* constructors and arithmetic of distributions.py *)
| F_Beta_from_mean | F_Beta_from_successes_and_failures | F_Gamma_from_occurrences_in_intervals
| F_Normal_from_mean_and_variance | F_Normal_from_mean_and_precision
| F_sics_from_inverse_gamma | F_sics_to_inverse_gamma
| F_Exponential_mul | F_Gamma_mul | F_NegativeBinomial_mul | F_Poisson_mul | F_Poisson_add | F_Normal_mul.

Section Fields.
Context {A : Type}.
(** [asdict] without the names (numeric fields only; the flag [one_start] is not one). *)
Definition Beta_fields (d : Beta A) := [Beta_alpha d; Beta_beta d].
Definition BetaBinomial_fields (d : BetaBinomial A) := [BetaBinomial_n d; BetaBinomial_alpha d; BetaBinomial_beta d].
Definition BetaNegativeBinomial_fields (d : BetaNegativeBinomial A) :=
  [BetaNegativeBinomial_n d; BetaNegativeBinomial_alpha d; BetaNegativeBinomial_beta d].
Definition BetaGeometric_fields (d : BetaGeometric A) := [BetaGeometric_alpha d; BetaGeometric_beta d].
Definition Gamma_fields (d : Gamma A) := [Gamma_alpha d; Gamma_beta d].
Definition NegativeBinomial_fields (d : NegativeBinomial A) := [NegativeBinomial_n d; NegativeBinomial_p d].
Definition Poisson_fields (d : Poisson A) := [Poisson_lam d].
Definition Lomax_fields (d : Lomax A) := [Lomax_alpha d; Lomax_lam d].
Definition CompoundGamma_fields (d : CompoundGamma A) := [CompoundGamma_alpha d; CompoundGamma_beta d; CompoundGamma_lam d].
Definition Normal_fields (d : Normal A) := [Normal_mu d; Normal_sigma d].
Definition InverseGamma_fields (d : InverseGamma A) := [InverseGamma_alpha d; InverseGamma_beta d].
Definition ScaledInverseChiSquared_fields (d : ScaledInverseChiSquared A) :=
  [ScaledInverseChiSquared_nu d; ScaledInverseChiSquared_sigma2 d].
Definition StudentT_fields (d : StudentT A) := [StudentT_mu d; StudentT_sigma d; StudentT_nu d].
Definition NormalGamma_fields (d : NormalGamma A) :=
  [NormalGamma_mu d; NormalGamma_lam d; NormalGamma_alpha d; NormalGamma_beta d].
Definition Pareto_fields (d : Pareto A) := [Pareto_x_m d; Pareto_alpha d].
Definition GammaProportional_fields (d : GammaProportional A) :=
  [GammaProportional_p d; GammaProportional_q d; GammaProportional_r d; GammaProportional_s d].
Definition GammaKnownRateProportional_fields (d : GammaKnownRateProportional A) :=
  [GammaKnownRateProportional_a d; GammaKnownRateProportional_b d; GammaKnownRateProportional_c d].
Definition BetaProportional_fields (d : BetaProportional A) :=
  [BetaProportional_p d; BetaProportional_q d; BetaProportional_k d].
Definition VonMisesKnownConcentration_fields (d : VonMisesKnownConcentration A) :=
  [VonMisesKnownConcentration_a d; VonMisesKnownConcentration_b d].
Definition VonMisesKnownDirectionProportional_fields (d : VonMisesKnownDirectionProportional A) :=
  [VonMisesKnownDirectionProportional_c d; VonMisesKnownDirectionProportional_r d].
Definition VariancePrior_fields (d : VariancePrior A) :=
  match d with VIG d => InverseGamma_fields d | VSICS d => ScaledInverseChiSquared_fields d end.
(** NormalInverseGamma with [nu] given: mu, alpha, beta, nu ([delta_inverse] is None). *)
Definition NormalPrior_fields {M} (d : NormalPrior A M) : list A :=
  match d with
  | PNIG d => [NormalInverseGamma_mu d; NormalInverseGamma_alpha d; NormalInverseGamma_beta d]
              ++ match NormalInverseGamma_nu d with Some nu => [nu] | None => [] end
  | PNG d => NormalGamma_fields d
  end.
End Fields.

Definition arity_error {B} : res B := Raise (TypeError "missing or unexpected argument").

Section Table.
Context {A : Type} {NA : Num A} (U : Ufuncs A).

Definition nig (mu alpha beta nu : A) : NormalPrior A unit :=
  PNIG (mkNormalInverseGamma mu alpha beta None (Some nu)).
Definition ng (mu lam alpha beta : A) : NormalPrior A unit := PNG (mkNormalGamma mu lam alpha beta).

Definition run (f : fn) (args : list A) : res (list A) :=
  match f, args with
  | F_binomial_beta, [n; x; a; b] => Ok (Beta_fields (binomial_beta n x (mkBeta a b)))
  | F_binomial_beta_predictive, [n; a; b] => Ok (BetaBinomial_fields (binomial_beta_predictive n (mkBeta a b)))
  | F_bernoulli_beta, [x; a; b] => Ok (Beta_fields (bernoulli_beta x (mkBeta a b)))
  | F_bernoulli_beta_predictive, [a; b] => Ok (BetaBinomial_fields (bernoulli_beta_predictive (mkBeta a b)))
  | F_negative_binomial_beta, [r; n; x; a; b] => Ok (Beta_fields (negative_binomial_beta r n x (mkBeta a b)))
  | F_negative_binomial_beta_predictive, [r; a; b] =>
      Ok (BetaNegativeBinomial_fields (negative_binomial_beta_predictive r (mkBeta a b)))
  | F_hypergeometric_beta_binomial, [x; n; N; a; b] =>
      Ok (BetaBinomial_fields (hypergeometric_beta_binomial x n (mkBetaBinomial N a b)))
  | F_geometric_beta o, [x; n; a; b] => Ok (Beta_fields (geometric_beta x n (mkBeta a b) o))
  | F_geometric_beta_predictive o, [a; b] => Ok (BetaGeometric_fields (geometric_beta_predictive (mkBeta a b) o))
  | F_poisson_gamma, [x; n; a; b] => Ok (Gamma_fields (poisson_gamma x n (mkGamma a b)))
  | F_poisson_gamma_predictive, [a; b; n] => Ok (NegativeBinomial_fields (poisson_gamma_predictive (mkGamma a b) n))
  | F_exponential_gamma, [x; n; a; b] => Ok (Gamma_fields (exponential_gamma x n (mkGamma a b)))
  | F_exponential_gamma_predictive, [a; b] => Ok (Lomax_fields (exponential_gamma_predictive (mkGamma a b)))
  | F_gamma_known_shape, [x; n; alpha; a; b] => Ok (Gamma_fields (gamma_known_shape x n alpha (mkGamma a b)))
  | F_gamma_known_shape_predictive, [a; b; alpha] =>
      Ok (CompoundGamma_fields (gamma_known_shape_predictive (mkGamma a b) alpha))
  | F_inverse_gamma_known_rate, [x; n; alpha; a; b] =>
      Ok (Gamma_fields (inverse_gamma_known_rate x n alpha (mkGamma a b)))
  | F_normal_known_variance, [x; n; var; mu; sigma] =>
      Ok (Normal_fields (normal_known_variance x n var (mkNormal mu sigma)))
  | F_normal_known_variance_predictive, [var; mu; sigma] =>
      Ok (Normal_fields (normal_known_variance_predictive var (mkNormal mu sigma)))
  | F_normal_known_precision, [x; n; precision; mu; sigma] =>
      Ok (Normal_fields (normal_known_precision x n precision (mkNormal mu sigma)))
  | F_normal_known_precision_predictive, [precision; mu; sigma] =>
      Ok (Normal_fields (normal_known_precision_predictive precision (mkNormal mu sigma)))
  | F_normal_known_mean_ig, [x; x2; n; mu; a; b] =>
      Ok (VariancePrior_fields (normal_known_mean x x2 n mu (VIG (mkInverseGamma a b))))
  | F_normal_known_mean_sics, [x; x2; n; mu; nu; s2] =>
      Ok (VariancePrior_fields (normal_known_mean x x2 n mu (VSICS (mkScaledInverseChiSquared nu s2))))
  | F_normal_known_mean_predictive_ig, [mu; a; b] =>
      Ok (StudentT_fields (normal_known_mean_predictive mu (VIG (mkInverseGamma a b))))
  | F_normal_known_mean_predictive_sics, [mu; nu; s2] =>
      Ok (StudentT_fields (normal_known_mean_predictive mu (VSICS (mkScaledInverseChiSquared nu s2))))
  | F_normal_nig, [x; x2; n; mu; a; b; nu] => rmap NormalPrior_fields (normal x x2 n (nig mu a b nu))
  | F_normal_ng, [x; x2; n; mu; lam; a; b] => rmap NormalPrior_fields (normal x x2 n (ng mu lam a b))
  | F_normal_predictive_nig, [mu; a; b; nu] => rmap StudentT_fields (normal_predictive (nig mu a b nu))
  | F_normal_predictive_ng, [mu; lam; a; b] => rmap StudentT_fields (normal_predictive (ng mu lam a b))
  | F_log_normal_nig, [x; x2; n; mu; a; b; nu] => rmap NormalPrior_fields (log_normal x x2 n (nig mu a b nu))
  | F_log_normal_ng, [x; x2; n; mu; lam; a; b] => rmap NormalPrior_fields (log_normal x x2 n (ng mu lam a b))
  | F_uniform_pareto, [x; n; x_m; a] => Ok (Pareto_fields (uniform_pareto (u_max U) x n (mkPareto x_m a)))
  | F_pareto_gamma, [n; lx; x_m; a; b] => Ok (Gamma_fields (pareto_gamma (u_ln U) n lx x_m (mkGamma a b)))
  | F_gamma, [x; xp; n; p; q; r; s] => Ok (GammaProportional_fields (gamma x xp n (mkGammaProportional p q r s)))
  | F_gamma_known_rate, [xp; n; be; a; b; c] =>
      Ok (GammaKnownRateProportional_fields (gamma_known_rate xp n be (mkGammaKnownRateProportional a b c)))
  | F_beta, [xp; mp; n; p; q; k] => Ok (BetaProportional_fields (beta xp mp n (mkBetaProportional p q k)))
  | F_von_mises_known_concentration, [ct; st; n; kappa; a; b] =>
      Ok (VonMisesKnownConcentration_fields
        (von_mises_known_concentration (u_sin U) (u_cos U) (u_arctan2 U) ct st n kappa (mkVonMisesKnownConcentration a b)))
  | F_von_mises_known_direction, [ct; n; c; r] =>
      Ok (VonMisesKnownDirectionProportional_fields
        (von_mises_known_direction ct n (mkVonMisesKnownDirectionProportional c r)))
  | F_weibull, [n; xb; a; b] => Ok (InverseGamma_fields (weibull_inverse_gamma_known_shape n xb (mkInverseGamma a b)))
  | F_Beta_from_mean, [mean; alpha] => Ok (Beta_fields (Beta_from_mean mean alpha))
  | F_Beta_from_successes_and_failures, [s; f] => Ok (Beta_fields (Beta_from_successes_and_failures s f))
  | F_Gamma_from_occurrences_in_intervals, [o; i] => Ok (Gamma_fields (Gamma_from_occurrences_in_intervals o i))
  | F_Normal_from_mean_and_variance, [m; v] => Ok (Normal_fields (Normal_from_mean_and_variance m v))
  | F_Normal_from_mean_and_precision, [m; p] => Ok (Normal_fields (Normal_from_mean_and_precision m p))
  | F_sics_from_inverse_gamma, [a; b] =>
      Ok (ScaledInverseChiSquared_fields (ScaledInverseChiSquared_from_inverse_gamma (mkInverseGamma a b)))
  | F_sics_to_inverse_gamma, [nu; s2] =>
      Ok (InverseGamma_fields (ScaledInverseChiSquared_to_inverse_gamma (mkScaledInverseChiSquared nu s2)))
  | F_Exponential_mul, [lam; other] => Ok (Gamma_fields (Exponential_mul (mkExponential lam) other))
  | F_Gamma_mul, [a; b; other] => Ok (Gamma_fields (Gamma_mul (mkGamma a b) other))
  | F_NegativeBinomial_mul, [n; p; other] => Ok (NegativeBinomial_fields (NegativeBinomial_mul (mkNegativeBinomial n p) other))
  | F_Poisson_mul, [lam; other] => Ok (Poisson_fields (Poisson_mul (mkPoisson lam) other))
  | F_Poisson_add, [lam; lam'] => Ok (Poisson_fields (Poisson_add (mkPoisson lam) (mkPoisson lam')))
  | F_Normal_mul, [mu; sigma; other] => Ok (Normal_fields (Normal_mul (mkNormal mu sigma) other))
  | _, _ => arity_error
  end.
End Table.
