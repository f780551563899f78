(** /repo/conjugate/models.py, function by function (element-wise models).

    Every definition is the body of the Python function; the decorators
    [validate_prior_type] / [validate_distribution_type] are modelled in
    [Model/Validate.v] and applied to these bodies in [Model/Table.v].
    Operations are written in the order and association of the source, so that
    symbolic instances produce the same expression tree. *)

From Coq Require Import ZArith Bool String List.
From Verif Require Import Model.Num Model.Py Model.Dists.
Import ListNotations.

Open Scope num_scope.

Section Models.
Context {A : Type} {NA : Num A}.

(** models.py:101-110 get_binomial_beta_posterior_params *)
Definition get_binomial_beta_posterior_params (alpha_prior beta_prior n x : A) : A * A :=
  let alpha_post := alpha_prior + x in
  let beta_post := beta_prior + (n - x) in
  (alpha_post, beta_post).

(** models.py:113-165 binomial_beta *)
Definition binomial_beta (n x : A) (prior : Beta A) : Beta A :=
  let '(alpha_post, beta_post) :=
    get_binomial_beta_posterior_params (Beta_alpha prior) (Beta_beta prior) n x in
  mkBeta alpha_post beta_post.

(** models.py:168-220 binomial_beta_predictive *)
Definition binomial_beta_predictive (n : A) (distribution : Beta A) : BetaBinomial A :=
  mkBetaBinomial n (Beta_alpha distribution) (Beta_beta distribution).

(** models.py:223-255 bernoulli_beta *)
Definition bernoulli_beta (x : A) (prior : Beta A) : Beta A :=
  binomial_beta (nlit 1) x prior.

(** models.py:258-271 bernoulli_beta_predictive *)
Definition bernoulli_beta_predictive (distribution : Beta A) : BetaBinomial A :=
  binomial_beta_predictive (nlit 1) distribution.

(** models.py:274-293 negative_binomial_beta *)
Definition negative_binomial_beta (r n x : A) (prior : Beta A) : Beta A :=
  let alpha_post := Beta_alpha prior + (r * n) in
  let beta_post := Beta_beta prior + x in
  mkBeta alpha_post beta_post.

(** models.py:296-314 negative_binomial_beta_predictive *)
Definition negative_binomial_beta_predictive (r : A) (distribution : Beta A)
  : BetaNegativeBinomial A :=
  mkBetaNegativeBinomial r (Beta_alpha distribution) (Beta_beta distribution).

(** models.py:317-343 hypergeometric_beta_binomial; the argument [n] is
    immediately overwritten by [prior.n] (line 338) *)
Definition hypergeometric_beta_binomial (x_total n : A) (prior : BetaBinomial A)
  : BetaBinomial A :=
  let n := BetaBinomial_n prior in
  let alpha_post := BetaBinomial_alpha prior + x_total in
  let beta_post := BetaBinomial_beta prior + (n - x_total) in
  mkBetaBinomial n alpha_post beta_post.

(** models.py:346-401 geometric_beta *)
Definition geometric_beta (x_total n : A) (prior : Beta A) (one_start : bool) : Beta A :=
  let alpha_post := Beta_alpha prior + n in
  let beta_post := Beta_beta prior + x_total in
  let beta_post := if one_start then beta_post - n else beta_post in
  mkBeta alpha_post beta_post.

(** models.py:404-427 geometric_beta_predictive *)
Definition geometric_beta_predictive (distribution : Beta A) (one_start : bool)
  : BetaGeometric A :=
  mkBetaGeometric (Beta_alpha distribution) (Beta_beta distribution) one_start.

(** models.py:564-574 get_poisson_gamma_posterior_params *)
Definition get_poisson_gamma_posterior_params (alpha beta x_total n : A) : A * A :=
  let alpha_post := alpha + x_total in
  let beta_post := beta + n in
  (alpha_post, beta_post).

(** models.py:577-594 poisson_gamma *)
Definition poisson_gamma (x_total n : A) (prior : Gamma A) : Gamma A :=
  let '(alpha_post, beta_post) :=
    get_poisson_gamma_posterior_params (Gamma_alpha prior) (Gamma_beta prior) x_total n in
  mkGamma alpha_post beta_post.

(** models.py:597-617 poisson_gamma_predictive (default n = 1 is [nlit 1]) *)
Definition poisson_gamma_predictive (distribution : Gamma A) (n : A) : NegativeBinomial A :=
  let n := n * Gamma_alpha distribution in
  let p := Gamma_beta distribution / (nlit 1 + Gamma_beta distribution) in
  mkNegativeBinomial n p.

(** models.py:621 get_exponential_gamma_posterior_params *)
Definition get_exponential_gamma_posterior_params := get_poisson_gamma_posterior_params.

(** models.py:624-641 exponential_gamma *)
Definition exponential_gamma (x_total n : A) (prior : Gamma A) : Gamma A :=
  let '(alpha_post, beta_post) :=
    get_exponential_gamma_posterior_params (Gamma_alpha prior) (Gamma_beta prior) x_total n in
  mkGamma alpha_post beta_post.

(** models.py:644-695 exponential_gamma_predictive *)
Definition exponential_gamma_predictive (distribution : Gamma A) : Lomax A :=
  mkLomax (Gamma_beta distribution) (Gamma_alpha distribution).

(** models.py:698-764 gamma_known_shape *)
Definition gamma_known_shape (x_total n alpha : A) (prior : Gamma A) : Gamma A :=
  let alpha_post := Gamma_alpha prior + n * alpha in
  let beta_post := Gamma_beta prior + x_total in
  mkGamma alpha_post beta_post.

(** models.py:767-783 gamma_known_shape_predictive *)
Definition gamma_known_shape_predictive (distribution : Gamma A) (alpha : A) : CompoundGamma A :=
  mkCompoundGamma alpha (Gamma_alpha distribution) (Gamma_beta distribution).

(** models.py:786-809 inverse_gamma_known_rate *)
Definition inverse_gamma_known_rate (reciprocal_x_total n alpha : A) (prior : Gamma A) : Gamma A :=
  let alpha_post := Gamma_alpha prior + n * alpha in
  let beta_post := Gamma_beta prior + reciprocal_x_total in
  mkGamma alpha_post beta_post.

(** models.py:812-879 normal_known_variance *)
Definition normal_known_variance (x_total n var : A) (prior : Normal A) : Normal A :=
  let mu_post :=
    ((Normal_mu prior / nsq (Normal_sigma prior)) + (x_total / var))
    / ((nlit 1 / nsq (Normal_sigma prior)) + (n / var)) in
  let var_post := nlit 1 / ((nlit 1 / nsq (Normal_sigma prior)) + (n / var)) in
  mkNormal mu_post (nsqrt var_post).

(** models.py:882-945 normal_known_variance_predictive *)
Definition normal_known_variance_predictive (var : A) (distribution : Normal A) : Normal A :=
  let var_posterior_predictive := var + nsq (Normal_sigma distribution) in
  mkNormal (Normal_mu distribution) (nsqrt var_posterior_predictive).

(** models.py:948-1014 normal_known_precision *)
Definition normal_known_precision (x_total n precision : A) (prior : Normal A) : Normal A :=
  normal_known_variance x_total n (nlit 1 / precision) prior.

(** models.py:1017-1086 normal_known_precision_predictive *)
Definition normal_known_precision_predictive (precision : A) (distribution : Normal A) : Normal A :=
  normal_known_variance_predictive (nlit 1 / precision) distribution.

(** models.py:1089-1100 _normal_known_mean_inverse_gamma_prior *)
Definition normal_known_mean_inverse_gamma_prior (x_total x2_total n mu : A)
  (prior : InverseGamma A) : InverseGamma A :=
  let alpha_post := InverseGamma_alpha prior + (n / nlit 2) in
  let beta_post :=
    InverseGamma_beta prior
    + (nhalf * ((x2_total - (nlit 2 * mu * x_total)) + (n * nsq mu))) in
  mkInverseGamma alpha_post beta_post.

(** The two prior families of normal_known_mean (models.py:1110) *)
Inductive VariancePrior :=
| VIG (d : InverseGamma A)
| VSICS (d : ScaledInverseChiSquared A).

(** models.py:1103-1139 normal_known_mean *)
Definition normal_known_mean (x_total x2_total n mu : A) (prior : VariancePrior) : VariancePrior :=
  let '(inverse_gamma_input, ig) :=
    match prior with
    | VIG d => (true, d)
    | VSICS d => (false, ScaledInverseChiSquared_to_inverse_gamma d)
    end in
  let posterior := normal_known_mean_inverse_gamma_prior x_total x2_total n mu ig in
  if inverse_gamma_input then VIG posterior
  else VSICS (ScaledInverseChiSquared_from_inverse_gamma posterior).

(** models.py:1142-1215 normal_known_mean_predictive *)
Definition normal_known_mean_predictive (mu : A) (distribution : VariancePrior) : StudentT A :=
  let ig := match distribution with
            | VIG d => d
            | VSICS d => ScaledInverseChiSquared_to_inverse_gamma d
            end in
  mkStudentT mu (nsqrt (InverseGamma_beta ig / InverseGamma_alpha ig))
             (nlit 2 * InverseGamma_alpha ig).

(** models.py:1218-1235 _normal; returns (mu_post, nu_post, alpha_post, beta_post) *)
Definition normal_update (x_total x2_total n mu_0 nu alpha beta : A) : A * A * A * A :=
  let x_mean := x_total / n in
  let nu_post := nu + n in
  let mu_post := ((nu * mu_0) + (n * x_mean)) / nu_post in
  let alpha_post := alpha + (n / nlit 2) in
  let beta_post :=
    beta + nhalf * ((nsq mu_0 * nu + x2_total) - nsq mu_post * nu_post) in
  (mu_post, nu_post, alpha_post, beta_post).

(** distributions.py:567-573 NormalInverseGamma.__post_init__: the constructor *)
Definition new_NormalInverseGamma {V M} (mu : V) (alpha beta : A)
  (delta_inverse : option M) (nu : option A) : res (NormalInverseGamma V M A) :=
  match delta_inverse, nu with
  | None, None => Raise (ValueError "Either delta_inverse or nu must be provided.")
  | Some _, Some _ => Raise (ValueError "Only one of delta_inverse or nu must be provided.")
  | _, _ => Ok (mkNormalInverseGamma mu alpha beta delta_inverse nu)
  end.

(** distributions.py:575-589 NormalInverseGamma.from_inverse_gamma *)
Definition NormalInverseGamma_from_inverse_gamma {V M} (mu : V) (inverse_gamma : InverseGamma A)
  (delta_inverse : option M) (nu : option A) : res (NormalInverseGamma V M A) :=
  new_NormalInverseGamma mu (InverseGamma_alpha inverse_gamma) (InverseGamma_beta inverse_gamma)
                         delta_inverse nu.

(** The two prior families of [normal] (models.py:1244); [M] is the type of matrices. *)
Inductive NormalPrior (M : Type) :=
| PNIG (d : NormalInverseGamma A M A)
| PNG (d : NormalGamma A).
Arguments PNIG {M}. Arguments PNG {M}.

(** models.py:1238-1287 normal *)
Definition normal {M} (x_total x2_total n : A) (prior : NormalPrior M) : res (NormalPrior M) :=
  match prior with
  | PNIG d =>
      match NormalInverseGamma_nu d with
      | None => Raise (ValueError "nu must be provided for the prior")
      | Some nu =>
          let '(mu_post, nu_post, alpha_post, beta_post) :=
            normal_update x_total x2_total n (NormalInverseGamma_mu d) nu
                          (NormalInverseGamma_alpha d) (NormalInverseGamma_beta d) in
          rmap PNIG (new_NormalInverseGamma mu_post alpha_post beta_post None (Some nu_post))
      end
  | PNG d =>
      let '(mu_post, nu_post, alpha_post, beta_post) :=
        normal_update x_total x2_total n (NormalGamma_mu d) (NormalGamma_lam d)
                      (NormalGamma_alpha d) (NormalGamma_beta d) in
      Ok (PNG (mkNormalGamma mu_post nu_post alpha_post beta_post))
  end.

(** Warnings are an observable effect: a call returns the list of emitted
    warnings together with its result. *)
Definition warned (B : Type) : Type := (list string * res B)%type.

(** models.py:1290-1318 normal_normal_inverse_gamma (deprecated).  The body
    passes [prior] on to [normal]; the annotation only admits NormalInverseGamma. *)
Definition normal_normal_inverse_gamma {M} (x_total x2_total n : A)
  (prior : NormalInverseGamma A M A) : warned (NormalPrior M) :=
  (["This function is deprecated. Use 'normal' instead."%string],
   normal x_total x2_total n (PNIG prior)).

(** models.py:1321-1345 normal_predictive.  With [nu] None, [nu + 1] is a TypeError. *)
Definition normal_predictive {M} (distribution : NormalPrior M) : res (StudentT A) :=
  let '(nu, mu, alpha, beta) :=
    match distribution with
    | PNIG d => (NormalInverseGamma_nu d, NormalInverseGamma_mu d,
                 NormalInverseGamma_alpha d, NormalInverseGamma_beta d)
    | PNG d => (Some (NormalGamma_lam d), NormalGamma_mu d,
                NormalGamma_alpha d, NormalGamma_beta d)
    end in
  match nu with
  | None => Raise (TypeError "unsupported operand type(s) for +: 'NoneType' and 'int'")
  | Some nu =>
      let var := beta * (nu + nlit 1) / (nu * alpha) in
      Ok (mkStudentT mu (nsqrt var) (nlit 2 * alpha))
  end.

(** models.py:1348-1367 normal_normal_inverse_gamma_predictive (deprecated) *)
Definition normal_normal_inverse_gamma_predictive {M}
  (distribution : NormalInverseGamma A M A) : warned (StudentT A) :=
  (["This function is deprecated. Use 'normal_predictive' instead."%string],
   normal_predictive (PNIG distribution)).

(** models.py:1455-1500 uniform_pareto; [max_fn] is a parameter of the function *)
Definition uniform_pareto (max_fn : A -> A -> A) (x_max n : A) (prior : Pareto A) : Pareto A :=
  let alpha_post := Pareto_alpha prior + n in
  let x_m_post := max_fn (Pareto_x_m prior) x_max in
  mkPareto x_m_post alpha_post.

(** models.py:1503-1569 pareto_gamma; [ln] is a parameter of the function *)
Definition pareto_gamma (ln : A -> A) (n ln_x_total x_m : A) (prior : Gamma A) : Gamma A :=
  let alpha_post := Gamma_alpha prior + n in
  let beta_post := (Gamma_beta prior + ln_x_total) - n * ln x_m in
  mkGamma alpha_post beta_post.

(** models.py:1572-1599 gamma *)
Definition gamma (x_total x_prod n : A) (prior : GammaProportional A) : GammaProportional A :=
  let p_post := GammaProportional_p prior * x_prod in
  let q_post := GammaProportional_q prior + x_total in
  let r_post := GammaProportional_r prior + n in
  let s_post := GammaProportional_s prior + n in
  mkGammaProportional p_post q_post r_post s_post.

(** models.py:1602-1627 gamma_known_rate; the argument [beta] is not used *)
Definition gamma_known_rate (x_prod n beta : A) (prior : GammaKnownRateProportional A)
  : GammaKnownRateProportional A :=
  let a_post := GammaKnownRateProportional_a prior * x_prod in
  let b_post := GammaKnownRateProportional_b prior + n in
  let c_post := GammaKnownRateProportional_c prior + n in
  mkGammaKnownRateProportional a_post b_post c_post.

(** models.py:1630-1656 beta *)
Definition beta (x_prod one_minus_x_prod n : A) (prior : BetaProportional A) : BetaProportional A :=
  let p_post := BetaProportional_p prior * x_prod in
  let q_post := BetaProportional_q prior * one_minus_x_prod in
  let k_post := BetaProportional_k prior + n in
  mkBetaProportional p_post q_post k_post.

(** models.py:1659-1691 von_mises_known_concentration; [sin], [cos], [arctan2]
    are parameters of the function; the argument [n] is not used *)
Definition von_mises_known_concentration (sin cos : A -> A) (arctan2 : A -> A -> A)
  (cos_total sin_total n kappa : A) (prior : VonMisesKnownConcentration A)
  : VonMisesKnownConcentration A :=
  let sin_total_post :=
    VonMisesKnownConcentration_a prior * sin (VonMisesKnownConcentration_b prior) + sin_total in
  let a_post := kappa * sin_total_post in
  let b_post :=
    arctan2 sin_total_post
      (VonMisesKnownConcentration_a prior * cos (VonMisesKnownConcentration_b prior) + cos_total) in
  mkVonMisesKnownConcentration a_post b_post.

(** models.py:1694-1715 von_mises_known_direction *)
Definition von_mises_known_direction (centered_cos_total n : A)
  (prior : VonMisesKnownDirectionProportional A) : VonMisesKnownDirectionProportional A :=
  mkVonMisesKnownDirectionProportional
    (VonMisesKnownDirectionProportional_c prior + n)
    (VonMisesKnownDirectionProportional_r prior + centered_cos_total).

(** models.py:2068-2143 log_normal *)
Definition log_normal {M} (ln_x_total ln_x2_total n : A) (prior : NormalPrior M)
  : res (NormalPrior M) :=
  normal ln_x_total ln_x2_total n prior.

(** models.py:2146-2167 weibull_inverse_gamma_known_shape *)
Definition weibull_inverse_gamma_known_shape (n x_beta_total : A) (prior : InverseGamma A)
  : InverseGamma A :=
  let alpha_post := InverseGamma_alpha prior + n in
  let beta_post := InverseGamma_beta prior + x_beta_total in
  mkInverseGamma alpha_post beta_post.

End Models.

Arguments VariancePrior : clear implicits.
Arguments NormalPrior : clear implicits.
Arguments PNIG {A M}. Arguments PNG {A M}.
