(** Histories: any sequence of calls of model functions on genuine data, each
    posterior being the prior of the next call. *)

From Coq Require Import Reals ZArith.
From Verif Require Import Model.Num Model.Py Model.Dists Model.Models Spec.Bayes Spec.Joint.
From Coq Require Import List.
Import ListNotations.
Open Scope R_scope.

(** Any prior of an element-wise model ([M]: the matrix type of NormalInverseGamma). *)
Inductive anyprior (M : Type) :=
| ABeta (d : Beta R) | AGamma (d : Gamma R) | AInverseGamma (d : InverseGamma R)
| AVariance (d : VariancePrior R) | ANormal (d : Normal R) | AJoint (d : NormalPrior R M)
| APareto (d : Pareto R) | ABetaBinomial (d : BetaBinomial R)
| AGammaProportional (d : GammaProportional R)
| AGammaKnownRateProportional (d : GammaKnownRateProportional R)
| ABetaProportional (d : BetaProportional R)
| AVonMisesKnownDirection (d : VonMisesKnownDirectionProportional R).
Arguments ABeta {M}. Arguments AGamma {M}. Arguments AInverseGamma {M}. Arguments AVariance {M}.
Arguments ANormal {M}. Arguments AJoint {M}. Arguments APareto {M}. Arguments ABetaBinomial {M}.
Arguments AGammaProportional {M}. Arguments AGammaKnownRateProportional {M}.
Arguments ABetaProportional {M}. Arguments AVonMisesKnownDirection {M}.

(** Parameters in the domain of the distribution. *)
Definition proper {M} (d : anyprior M) : Prop :=
  match d with
  | ABeta d => 0 < Beta_alpha d /\ 0 < Beta_beta d
  | AGamma d => 0 < Gamma_alpha d /\ 0 < Gamma_beta d
  | AInverseGamma d => 0 < InverseGamma_alpha d /\ 0 < InverseGamma_beta d
  | AVariance d => variance_ok d
  | ANormal d => 0 < Normal_sigma d
  | AJoint d => normal_prior_ok d
  | APareto d => 0 < Pareto_x_m d /\ 0 < Pareto_alpha d
  | ABetaBinomial d => 0 <= BetaBinomial_n d /\ 0 < BetaBinomial_alpha d /\ 0 < BetaBinomial_beta d
  | AGammaProportional d => 0 < GammaProportional_p d /\ 0 < GammaProportional_q d
      /\ 0 < GammaProportional_r d /\ 0 < GammaProportional_s d
  | AGammaKnownRateProportional d => 0 < GammaKnownRateProportional_a d
      /\ 0 < GammaKnownRateProportional_b d /\ 0 < GammaKnownRateProportional_c d
  | ABetaProportional d => 0 < BetaProportional_p d /\ 0 < BetaProportional_q d /\ 0 < BetaProportional_k d
  | AVonMisesKnownDirection d =>
      Rabs (VonMisesKnownDirectionProportional_r d) < VonMisesKnownDirectionProportional_c d
  end.

(** One call on genuine data. *)
Inductive call {M} : anyprior M -> anyprior M -> Prop :=
| call_binomial_beta d (data : list (nat * nat)) : Forall (fun o => (snd o <= fst o)%nat) data ->
    call (ABeta d) (ABeta (binomial_beta (INR (sumN (map fst data))) (INR (sumN (map snd data))) d))
| call_bernoulli_beta d (x : nat) : (x <= 1)%nat -> call (ABeta d) (ABeta (bernoulli_beta (INR x) d))
| call_negative_binomial_beta d r (data : list nat) : 0 < r ->
    call (ABeta d) (ABeta (negative_binomial_beta r (INR (length data)) (INR (sumN data)) d))
| call_geometric_beta d (one_start : bool) (data : list nat) :
    Forall (fun k => ((if one_start then 1 else 0) <= k)%nat) data ->
    call (ABeta d) (ABeta (geometric_beta (INR (sumN data)) (INR (length data)) d one_start))
| call_hypergeometric d (x n : nat) : INR x <= BetaBinomial_n d ->
    call (ABetaBinomial d) (ABetaBinomial (hypergeometric_beta_binomial (INR x) (INR n) d))
| call_poisson_gamma d (data : list nat) :
    call (AGamma d) (AGamma (poisson_gamma (INR (sumN data)) (INR (length data)) d))
| call_exponential_gamma d (data : list R) : Forall (fun x => 0 <= x) data ->
    call (AGamma d) (AGamma (exponential_gamma (sumR data) (INR (length data)) d))
| call_gamma_known_shape d alpha (data : list R) : 0 < alpha -> Forall (fun x => 0 < x) data ->
    call (AGamma d) (AGamma (gamma_known_shape (sumR data) (INR (length data)) alpha d))
| call_inverse_gamma_known_rate d alpha (data : list R) : 0 < alpha -> Forall (fun x => 0 < x) data ->
    call (AGamma d) (AGamma (inverse_gamma_known_rate (sumR (map Rinv data)) (INR (length data)) alpha d))
| call_pareto_gamma d x_m (data : list R) : 0 < x_m -> Forall (fun x => x_m <= x) data ->
    call (AGamma d) (AGamma (pareto_gamma ln (INR (length data)) (sumR (map ln data)) x_m d))
| call_weibull d b (data : list R) : 0 < b -> Forall (fun x => 0 < x) data ->
    call (AInverseGamma d) (AInverseGamma (weibull_inverse_gamma_known_shape (INR (length data)) (sumR (map (fun x => Rpower x b) data)) d))
| call_normal_known_variance d var (data : list R) : 0 < var ->
    call (ANormal d) (ANormal (normal_known_variance (sumR data) (INR (length data)) var d))
| call_normal_known_precision d precision (data : list R) : 0 < precision ->
    call (ANormal d) (ANormal (normal_known_precision (sumR data) (INR (length data)) precision d))
| call_normal_known_mean d mu (data : list R) :
    call (AVariance d) (AVariance (normal_known_mean (sumR data) (sumR (map (fun x => x ^ 2) data)) (INR (length data)) mu d))
| call_normal d d' (data : list R) : data <> [] ->
    normal (sumR data) (sumR (map (fun x => x ^ 2) data)) (INR (length data)) d = Ok d' -> call (AJoint d) (AJoint d')
| call_log_normal d d' (data : list R) : data <> [] -> Forall (fun x => 0 < x) data ->
    log_normal (sumR (map ln data)) (sumR (map (fun x => (ln x) ^ 2) data)) (INR (length data)) d = Ok d' -> call (AJoint d) (AJoint d')
| call_uniform_pareto d x (data : list R) : Forall (fun x => 0 < x) (x :: data) ->
    call (APareto d) (APareto (uniform_pareto Rmax (maxR x data) (INR (length (x :: data))) d))
| call_gamma d (data : list R) : Forall (fun x => 0 < x) data ->
    call (AGammaProportional d) (AGammaProportional (gamma (sumR data) (prodR data) (INR (length data)) d))
| call_gamma_known_rate d b (data : list R) : Forall (fun x => 0 < x) data ->
    call (AGammaKnownRateProportional d) (AGammaKnownRateProportional (gamma_known_rate (prodR data) (INR (length data)) b d))
| call_beta d (data : list R) : Forall (fun x => 0 < x < 1) data ->
    call (ABetaProportional d) (ABetaProportional (beta (prodR data) (prodR (map (fun x => 1 - x) data)) (INR (length data)) d))
| call_von_mises_known_direction d mu (data : list R) :
    call (AVonMisesKnownDirection d)
      (AVonMisesKnownDirection (von_mises_known_direction (sumR (map (fun x => cos (x - mu)) data)) (INR (length data)) d))
(* the library's conversions between the two variance families *)
| call_to_inverse_gamma d : call (AVariance (VSICS d)) (AVariance (VIG (ScaledInverseChiSquared_to_inverse_gamma d)))
| call_from_inverse_gamma d : call (AVariance (VIG d)) (AVariance (VSICS (ScaledInverseChiSquared_from_inverse_gamma d))).

(** Any number of calls. *)
Inductive history {M} : anyprior M -> anyprior M -> Prop :=
| history_nil d : history d d
| history_cons d d' d'' : call d d' -> history d' d'' -> history d d''.
