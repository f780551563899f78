(** Joint densities and Bayes' rule for two real parameters. *)

From Coq Require Import Reals List.
From Coquelicot Require Import Coquelicot.
From Verif Require Import Model.Num Model.Dists Model.ScipyDist Model.Models Spec.Densities.
Open Scope R_scope.

(** [post] is the posterior density of ([m], [v]), [m] over the interval
    (Fa, Fb) and [v] over (Ga, Gb): the evidence is the iterated integral of
    prior times likelihood. *)
Definition bayes_posterior2 (Fa Fb Ga Gb : (R -> Prop) -> Prop)
  (dom : R -> Prop) (prior lik post : R -> R -> R) : Prop :=
  exists (inner : R -> R) (evidence : R),
    0 < evidence /\
    (forall v, dom v -> is_RInt_gen (fun m => prior m v * lik m v) Fa Fb (inner v)) /\
    is_RInt_gen inner Ga Gb evidence /\
    forall m v, post m v = prior m v * lik m v / evidence.

(** Normal-inverse-gamma (wikipedia): v ~ InverseGamma(a, b), m | v ~ N(mu, v / nu). *)
Definition nig_pdf (mu nu a b m v : R) : R :=
  pdf (S_invgamma_scale a b) v * pdf (S_norm mu (sqrt (v / nu))) m.

(** Normal-gamma (wikipedia): tau ~ Gamma(a, rate b), m | tau ~ N(mu, 1 / (lam tau)). *)
Definition ng_pdf (mu lam a b m tau : R) : R :=
  pdf (S_gamma_scale a (/ b)) tau * pdf (S_norm mu (/ sqrt (lam * tau))) m.

(** x is log-normal with parameters (m, v): ln x is normal with mean m and variance v. *)
Definition lognormal_pdf (m v x : R) : R :=
  / (x * sqrt (2 * PI * v)) * exp (- (ln x - m) ^ 2 / (2 * v)).

(** [pred] is the marginal density at one outcome of a two-parameter model. *)
Definition marginal2 (Fa Fb Ga Gb : (R -> Prop) -> Prop) (dom : R -> Prop)
  (dens lik : R -> R -> R) (pred : R) : Prop :=
  exists inner : R -> R,
    (forall v, dom v -> is_RInt_gen (fun m => lik m v * dens m v) Fa Fb (inner v)) /\
    is_RInt_gen inner Ga Gb pred.

(** The variance prior families of [normal_known_mean]: scipy object and proper parameters. *)
Definition variance_dist (d : VariancePrior R) : frozen R :=
  match d with VIG d => InverseGamma_dist d | VSICS d => ScaledInverseChiSquared_dist d end.

Definition variance_ok (d : VariancePrior R) : Prop :=
  match d with VIG d => 0 < InverseGamma_alpha d /\ 0 < InverseGamma_beta d
  | VSICS d => 0 < ScaledInverseChiSquared_nu d /\ 0 < ScaledInverseChiSquared_sigma2 d end.

(** Densities of the two prior families of [normal]. *)
Definition normal_prior_ok {M} (d : NormalPrior R M) : Prop :=
  match d with
  | PNIG d => NormalInverseGamma_delta_inverse d = None /\
      (exists nu, NormalInverseGamma_nu d = Some nu /\ 0 < nu) /\ 0 < NormalInverseGamma_alpha d /\ 0 < NormalInverseGamma_beta d
  | PNG d => 0 < NormalGamma_lam d /\ 0 < NormalGamma_alpha d /\ 0 < NormalGamma_beta d
  end.
Definition normal_prior_pdf {M} (d : NormalPrior R M) : R -> R -> R :=
  match d with
  | PNIG d => match NormalInverseGamma_nu d with
     | Some nu => nig_pdf (NormalInverseGamma_mu d) nu (NormalInverseGamma_alpha d) (NormalInverseGamma_beta d)
     | None => fun _ _ => 0 end
  | PNG d => ng_pdf (NormalGamma_mu d) (NormalGamma_lam d) (NormalGamma_alpha d) (NormalGamma_beta d)
  end.
(** The observation model: the second coordinate is the variance for the
    inverse-gamma family and the precision for the gamma family. *)
Definition normal_obs_sd {M} (d : NormalPrior R M) (v : R) : R :=
  match d with PNIG _ => sqrt v | PNG _ => / sqrt v end.

