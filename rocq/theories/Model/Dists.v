(** The dataclasses of /repo/conjugate/distributions.py and their
    arithmetic-only methods.  The plotting state (_min_value, _max_value) is
    modelled separately in [Model/PlotModel.v]; [dist] in [Model/ScipyDist.v]. *)

From Coq Require Import ZArith Bool.
From Verif Require Import Model.Num.

Open Scope num_scope.

(** ** Dataclasses (fields in declaration order) *)

(** distributions.py:65-77 *)
Record Beta A := mkBeta { Beta_alpha : A; Beta_beta : A }.
(** distributions.py:105-116 *)
Record Binomial A := mkBinomial { Binomial_n : A; Binomial_p : A }.
(** distributions.py:205-214 *)
Record Exponential A := mkExponential { Exponential_lam : A }.
(** distributions.py:226-239 *)
Record Gamma A := mkGamma { Gamma_alpha : A; Gamma_beta : A }.
(** distributions.py:255-266 *)
Record NegativeBinomial A := mkNegativeBinomial
  { NegativeBinomial_n : A; NegativeBinomial_p : A }.
(** distributions.py:278-291 *)
Record Hypergeometric A := mkHypergeometric
  { Hypergeometric_N : A; Hypergeometric_k : A; Hypergeometric_n : A }.
(** distributions.py:304-313 *)
Record Poisson A := mkPoisson { Poisson_lam : A }.
(** distributions.py:330-343 *)
Record BetaBinomial A := mkBetaBinomial
  { BetaBinomial_n : A; BetaBinomial_alpha : A; BetaBinomial_beta : A }.
(** distributions.py:356-369 *)
Record BetaNegativeBinomial A := mkBetaNegativeBinomial
  { BetaNegativeBinomial_n : A; BetaNegativeBinomial_alpha : A;
    BetaNegativeBinomial_beta : A }.
(** distributions.py:386-397 *)
Record Geometric A := mkGeometric { Geometric_p : A; Geometric_one_start : bool }.
(** distributions.py:405-418 *)
Record BetaGeometric A := mkBetaGeometric
  { BetaGeometric_alpha : A; BetaGeometric_beta : A; BetaGeometric_one_start : bool }.
(** distributions.py:425-436 *)
Record Normal A := mkNormal { Normal_mu : A; Normal_sigma : A }.
(** distributions.py:488-499 *)
Record Uniform A := mkUniform { Uniform_low : A; Uniform_high : A }.
(** distributions.py:510-521 *)
Record Pareto A := mkPareto { Pareto_x_m : A; Pareto_alpha : A }.
(** distributions.py:528-539 *)
Record InverseGamma A := mkInverseGamma { InverseGamma_alpha : A; InverseGamma_beta : A }.
(** distributions.py:546-574: [M] is the type of the matrix parameter
    delta_inverse, [V] the type of mu (a number in the 1-d case).  [None] is
    Python's None. *)
Record NormalInverseGamma V M A := mkNormalInverseGamma
  { NormalInverseGamma_mu : V; NormalInverseGamma_alpha : A; NormalInverseGamma_beta : A;
    NormalInverseGamma_delta_inverse : option M; NormalInverseGamma_nu : option A }.
(** distributions.py:670-683 *)
Record StudentT A := mkStudentT { StudentT_mu : A; StudentT_sigma : A; StudentT_nu : A }.
(** distributions.py:718-729 *)
Record Lomax A := mkLomax { Lomax_alpha : A; Lomax_lam : A }.
(** distributions.py:736-749 *)
Record CompoundGamma A := mkCompoundGamma
  { CompoundGamma_alpha : A; CompoundGamma_beta : A; CompoundGamma_lam : A }.
(** distributions.py:756-768 *)
Record GammaKnownRateProportional A := mkGammaKnownRateProportional
  { GammaKnownRateProportional_a : A; GammaKnownRateProportional_b : A;
    GammaKnownRateProportional_c : A }.
(** distributions.py:793-808 *)
Record GammaProportional A := mkGammaProportional
  { GammaProportional_p : A; GammaProportional_q : A;
    GammaProportional_r : A; GammaProportional_s : A }.
(** distributions.py:833-846 *)
Record BetaProportional A := mkBetaProportional
  { BetaProportional_p : A; BetaProportional_q : A; BetaProportional_k : A }.
(** distributions.py:872-883 *)
Record VonMises A := mkVonMises { VonMises_mu : A; VonMises_kappa : A }.
(** distributions.py:894-907 *)
Record VonMisesKnownConcentration A := mkVonMisesKnownConcentration
  { VonMisesKnownConcentration_a : A; VonMisesKnownConcentration_b : A }.
(** distributions.py:925-937 *)
Record VonMisesKnownDirectionProportional A := mkVonMisesKnownDirectionProportional
  { VonMisesKnownDirectionProportional_c : A; VonMisesKnownDirectionProportional_r : A }.
(** distributions.py:954-965 *)
Record ScaledInverseChiSquared A := mkScaledInverseChiSquared
  { ScaledInverseChiSquared_nu : A; ScaledInverseChiSquared_sigma2 : A }.
(** distributions.py:1000-1015 *)
Record NormalGamma A := mkNormalGamma
  { NormalGamma_mu : A; NormalGamma_lam : A; NormalGamma_alpha : A; NormalGamma_beta : A }.
(** distributions.py:1292-1303 *)
Record LogNormal A := mkLogNormal { LogNormal_mu : A; LogNormal_sigma : A }.
(** distributions.py:1310-1350 *)
Record Weibull A := mkWeibull { Weibull_beta : A; Weibull_theta : A }.

Arguments mkBeta {A}. Arguments Beta_alpha {A}. Arguments Beta_beta {A}.
Arguments mkBinomial {A}. Arguments Binomial_n {A}. Arguments Binomial_p {A}.
Arguments mkExponential {A}. Arguments Exponential_lam {A}.
Arguments mkGamma {A}. Arguments Gamma_alpha {A}. Arguments Gamma_beta {A}.
Arguments mkNegativeBinomial {A}. Arguments NegativeBinomial_n {A}. Arguments NegativeBinomial_p {A}.
Arguments mkHypergeometric {A}. Arguments Hypergeometric_N {A}. Arguments Hypergeometric_k {A}. Arguments Hypergeometric_n {A}.
Arguments mkPoisson {A}. Arguments Poisson_lam {A}.
Arguments mkBetaBinomial {A}. Arguments BetaBinomial_n {A}. Arguments BetaBinomial_alpha {A}. Arguments BetaBinomial_beta {A}.
Arguments mkBetaNegativeBinomial {A}. Arguments BetaNegativeBinomial_n {A}. Arguments BetaNegativeBinomial_alpha {A}. Arguments BetaNegativeBinomial_beta {A}.
Arguments mkGeometric {A}. Arguments Geometric_p {A}. Arguments Geometric_one_start {A}.
Arguments mkBetaGeometric {A}. Arguments BetaGeometric_alpha {A}. Arguments BetaGeometric_beta {A}. Arguments BetaGeometric_one_start {A}.
Arguments mkNormal {A}. Arguments Normal_mu {A}. Arguments Normal_sigma {A}.
Arguments mkUniform {A}. Arguments Uniform_low {A}. Arguments Uniform_high {A}.
Arguments mkPareto {A}. Arguments Pareto_x_m {A}. Arguments Pareto_alpha {A}.
Arguments mkInverseGamma {A}. Arguments InverseGamma_alpha {A}. Arguments InverseGamma_beta {A}.
Arguments mkNormalInverseGamma {V M A}.
Arguments NormalInverseGamma_mu {V M A}. Arguments NormalInverseGamma_alpha {V M A}. Arguments NormalInverseGamma_beta {V M A}.
Arguments NormalInverseGamma_delta_inverse {V M A}. Arguments NormalInverseGamma_nu {V M A}.
Arguments mkStudentT {A}. Arguments StudentT_mu {A}. Arguments StudentT_sigma {A}. Arguments StudentT_nu {A}.
Arguments mkLomax {A}. Arguments Lomax_alpha {A}. Arguments Lomax_lam {A}.
Arguments mkCompoundGamma {A}. Arguments CompoundGamma_alpha {A}. Arguments CompoundGamma_beta {A}. Arguments CompoundGamma_lam {A}.
Arguments mkGammaKnownRateProportional {A}. Arguments GammaKnownRateProportional_a {A}. Arguments GammaKnownRateProportional_b {A}. Arguments GammaKnownRateProportional_c {A}.
Arguments mkGammaProportional {A}. Arguments GammaProportional_p {A}. Arguments GammaProportional_q {A}. Arguments GammaProportional_r {A}. Arguments GammaProportional_s {A}.
Arguments mkBetaProportional {A}. Arguments BetaProportional_p {A}. Arguments BetaProportional_q {A}. Arguments BetaProportional_k {A}.
Arguments mkVonMises {A}. Arguments VonMises_mu {A}. Arguments VonMises_kappa {A}.
Arguments mkVonMisesKnownConcentration {A}. Arguments VonMisesKnownConcentration_a {A}. Arguments VonMisesKnownConcentration_b {A}.
Arguments mkVonMisesKnownDirectionProportional {A}. Arguments VonMisesKnownDirectionProportional_c {A}. Arguments VonMisesKnownDirectionProportional_r {A}.
Arguments mkScaledInverseChiSquared {A}. Arguments ScaledInverseChiSquared_nu {A}. Arguments ScaledInverseChiSquared_sigma2 {A}.
Arguments mkNormalGamma {A}. Arguments NormalGamma_mu {A}. Arguments NormalGamma_lam {A}. Arguments NormalGamma_alpha {A}. Arguments NormalGamma_beta {A}.
Arguments mkLogNormal {A}. Arguments LogNormal_mu {A}. Arguments LogNormal_sigma {A}.
Arguments mkWeibull {A}. Arguments Weibull_beta {A}. Arguments Weibull_theta {A}.

(** ** Methods *)

Section Methods.
Context {A : Type} {NA : Num A}.

(** distributions.py:59-62 get_beta_param_from_mean_and_alpha *)
Definition get_beta_param_from_mean_and_alpha (mean alpha : A) : A :=
  alpha * ((nlit 1 / mean) - nlit 1).

(** distributions.py:82-86 Beta.from_mean *)
Definition Beta_from_mean (mean alpha : A) : Beta A :=
  let beta := get_beta_param_from_mean_and_alpha mean alpha in
  mkBeta alpha beta.

(** distributions.py:88-90 Beta.uninformative *)
Definition Beta_uninformative : Beta A := mkBeta (nlit 1) (nlit 1).

(** distributions.py:92-99 Beta.from_successes_and_failures *)
Definition Beta_from_successes_and_failures (successes failures : A) : Beta A :=
  let alpha := successes + nlit 1 in
  let beta := failures + nlit 1 in
  mkBeta alpha beta.

(** distributions.py:220-223 Exponential.__mul__ = __rmul__ *)
Definition Exponential_mul (d : Exponential A) (other : A) : Gamma A :=
  mkGamma other (nlit 1 / Exponential_lam d).

(** distributions.py:241-243 Gamma.from_occurrences_in_intervals *)
Definition Gamma_from_occurrences_in_intervals (occurrences intervals : A) : Gamma A :=
  mkGamma occurrences intervals.

(** distributions.py:249-252 Gamma.__mul__ = __rmul__ *)
Definition Gamma_mul (d : Gamma A) (other : A) : Gamma A :=
  mkGamma (Gamma_alpha d * other) (Gamma_beta d).

(** distributions.py:272-275 NegativeBinomial.__mul__ = __rmul__ *)
Definition NegativeBinomial_mul (d : NegativeBinomial A) (other : A) : NegativeBinomial A :=
  mkNegativeBinomial (NegativeBinomial_n d * other) (NegativeBinomial_p d).

(** distributions.py:319-322 Poisson.__mul__ = __rmul__ *)
Definition Poisson_mul (d : Poisson A) (other : A) : Poisson A :=
  mkPoisson (Poisson_lam d * other).

(** distributions.py:324-327 Poisson.__add__ = __radd__ *)
Definition Poisson_add (d other : Poisson A) : Poisson A :=
  mkPoisson (Poisson_lam d + Poisson_lam other).

(** distributions.py:442-445 Normal.uninformative *)
Definition Normal_uninformative (sigma : A) : Normal A := mkNormal (nlit 0) sigma.

(** distributions.py:447-450 Normal.from_mean_and_variance *)
Definition Normal_from_mean_and_variance (mean variance : A) : Normal A :=
  mkNormal mean (nsqrt variance).

(** distributions.py:452-455 Normal.from_mean_and_precision *)
Definition Normal_from_mean_and_precision (mean precision : A) : Normal A :=
  mkNormal mean (nrsqrt precision).

(** distributions.py:457-461 Normal.__mul__ = __rmul__ *)
Definition Normal_mul (d : Normal A) (other : A) : Normal A :=
  let sigma := nsqrt (nsq (Normal_sigma d) * other) in
  mkNormal (Normal_mu d * other) sigma.

(** distributions.py:590-592 NormalInverseGamma.inverse_gamma *)
Definition NormalInverseGamma_inverse_gamma {V M} (d : NormalInverseGamma V M A) : InverseGamma A :=
  mkInverseGamma (NormalInverseGamma_alpha d) (NormalInverseGamma_beta d).

(** distributions.py:770-790 GammaKnownRateProportional.approx_log_likelihood;
    [ln] and [gammaln] are parameters of the Python method *)
Definition GammaKnownRateProportional_approx_log_likelihood (ln gammaln : A -> A)
  (d : GammaKnownRateProportional A) (alpha beta : A) : A :=
  ((alpha - nlit 1) * ln (GammaKnownRateProportional_a d)
   + alpha * GammaKnownRateProportional_c d * ln beta)
  - GammaKnownRateProportional_b d * gammaln alpha.

(** distributions.py:810-830 GammaProportional.approx_log_likelihood *)
Definition GammaProportional_approx_log_likelihood (ln gammaln : A -> A)
  (d : GammaProportional A) (alpha beta : A) : A :=
  (((alpha - nlit 1) * ln (GammaProportional_p d)
    - GammaProportional_q d * beta)
   - GammaProportional_r d * gammaln alpha)
  + GammaProportional_s d * alpha * ln beta.

(** distributions.py:848-869 BetaProportional.approx_log_likelihood *)
Definition BetaProportional_approx_log_likelihood (ln gammaln : A -> A)
  (d : BetaProportional A) (alpha beta : A) : A :=
  (((BetaProportional_k d * gammaln (alpha + beta)
     + alpha * ln (BetaProportional_p d))
    + beta * ln (BetaProportional_q d))
   - BetaProportional_k d * gammaln alpha)
  - BetaProportional_k d * gammaln beta.

(** distributions.py:909-922 VonMisesKnownConcentration.log_likelihood *)
Definition VonMisesKnownConcentration_log_likelihood (cos ln i0 : A -> A)
  (d : VonMisesKnownConcentration A) (mu : A) : A :=
  (VonMisesKnownConcentration_a d + cos (mu - VonMisesKnownConcentration_b d))
  - ln (i0 (VonMisesKnownConcentration_a d)).

(** distributions.py:939-951 VonMisesKnownDirectionProportional.approx_log_likelihood *)
Definition VonMisesKnownDirectionProportional_approx_log_likelihood (ln i0 : A -> A)
  (d : VonMisesKnownDirectionProportional A) (kappa : A) : A :=
  kappa * VonMisesKnownDirectionProportional_r d
  - VonMisesKnownDirectionProportional_c d * ln (i0 kappa).

(** distributions.py:967-984 ScaledInverseChiSquared.from_inverse_gamma *)
Definition ScaledInverseChiSquared_from_inverse_gamma (ig : InverseGamma A) : ScaledInverseChiSquared A :=
  let nu := InverseGamma_alpha ig * nlit 2 in
  let sigma2 := InverseGamma_beta ig * nlit 2 / nu in
  mkScaledInverseChiSquared nu sigma2.

(** distributions.py:986-993 ScaledInverseChiSquared.to_inverse_gamma *)
Definition ScaledInverseChiSquared_to_inverse_gamma (d : ScaledInverseChiSquared A) : InverseGamma A :=
  mkInverseGamma (ScaledInverseChiSquared_nu d / nlit 2)
                 (ScaledInverseChiSquared_nu d * ScaledInverseChiSquared_sigma2 d / nlit 2).

(** distributions.py:1017-1019 NormalGamma.gamma *)
Definition NormalGamma_gamma (d : NormalGamma A) : Gamma A :=
  mkGamma (NormalGamma_alpha d) (NormalGamma_beta d).

End Methods.
