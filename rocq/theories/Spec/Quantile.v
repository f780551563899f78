(** Quantiles and credible intervals of a density, and the continuous distributions of the library. *)

From Coq Require Import Reals.
From Coquelicot Require Import Coquelicot.
From Verif Require Import Model.Num Model.Dists Model.ScipyDist Spec.Normalised.
Open Scope R_scope.

Definition inside (lo hi : Rbar) (x : R) : Prop := Rbar_lt lo x /\ Rbar_lt x hi.

(** [cdf(t) = p] *)
Definition at_most (lo : Rbar) (f : R -> R) (t p : R) : Prop := is_RInt_gen f (from lo) (at_point t) p.
(** [1 - cdf(t) = p] *)
Definition at_least (hi : Rbar) (f : R -> R) (t p : R) : Prop := is_RInt_gen f (at_point t) (upto hi) p.
(** [ppf(q) = t] *)
Definition is_quantile (lo hi : Rbar) (f : R -> R) (q t : R) : Prop := inside lo hi t /\ at_most lo f t q.

(** The central interval that holds the probability [level], the same missing on either side. *)
Definition credible (lo hi : Rbar) (f : R -> R) (level : R) (ab : R * R) : Prop :=
  let (a, b) := ab in
  inside lo hi a /\ inside lo hi b /\ a < b /\
  at_most lo f a ((1 - level) / 2) /\ is_RInt f a b level /\ at_least hi f b ((1 - level) / 2).

(** [d] is a [dist] of the library with valid parameters and support from [lo] to [hi]. *)
Inductive valid : Rbar -> Rbar -> frozen R -> Prop :=
| V_Beta d : 0 < Beta_alpha d -> 0 < Beta_beta d -> valid 0 1 (Beta_dist d)
| V_Gamma d : 0 < Gamma_alpha d -> 0 < Gamma_beta d -> valid 0 p_infty (Gamma_dist d)
| V_Exponential d : 0 < Exponential_lam d -> valid 0 p_infty (Exponential_dist d)
| V_InverseGamma d : 0 < InverseGamma_alpha d -> 0 < InverseGamma_beta d -> valid 0 p_infty (InverseGamma_dist d)
| V_ScaledInverseChiSquared d : 0 < ScaledInverseChiSquared_nu d -> 0 < ScaledInverseChiSquared_sigma2 d ->
    valid 0 p_infty (ScaledInverseChiSquared_dist d)
| V_Normal d : 0 < Normal_sigma d -> valid m_infty p_infty (Normal_dist d)
| V_StudentT d : 0 < StudentT_nu d -> 0 < StudentT_sigma d -> valid m_infty p_infty (StudentT_dist d)
| V_Uniform d : 0 < Uniform_high d -> valid (Uniform_low d) (Uniform_low d + Uniform_high d) (Uniform_dist d)
| V_Pareto d : 0 < Pareto_x_m d -> 0 < Pareto_alpha d -> valid (Pareto_x_m d) p_infty (Pareto_dist d)
| V_Lomax d : 0 < Lomax_lam d -> 0 < Lomax_alpha d -> valid 0 p_infty (Lomax_dist d)
| V_Weibull d : 0 < Weibull_beta d -> 0 < Weibull_theta d -> valid 0 p_infty (Weibull_dist d)
| V_LogNormal d : 0 < LogNormal_sigma d -> valid (LogNormal_mu d) p_infty (LogNormal_dist d)
| V_CompoundGamma d : 0 < CompoundGamma_alpha d -> 0 < CompoundGamma_beta d -> 0 < CompoundGamma_lam d ->
    valid 0 p_infty (CompoundGamma_dist d).
