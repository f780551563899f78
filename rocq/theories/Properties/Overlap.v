(** C76: scalar models of the same situation, and C75 for two categories. *)

From Coq Require Import Reals Lra ZArith Lia.
From Coquelicot Require Import Coquelicot.
From Verif Require Import Model.Num Model.Py Model.NdArray Model.DirichletModel Model.Dists Model.ScipyDist Model.Models.
From Verif Require Import Spec.Special Spec.Densities Spec.Bayes Spec.Simplex Spec.Containers.
From Verif Require Import Proofs.Overlap.
From Coq Require Import List.
Import ListNotations.
Open Scope R_scope.

(** C75: with two categories, s times the first and f times the second, the
    Dirichlet models make the update of [binomial_beta] ... *)
Theorem C75_two_categories :
  forall (prior x : container R) (a b s f : R),
  holds prior [a; b] -> holds x [s; f] -> ~ concatenates prior x ->
  exists out p, multinomial_dirichlet x prior = Ok (mkDirichlet (OVal out)) /\
    categorical_dirichlet x prior = Ok (mkDirichlet (OVal out)) /\
    binomial_beta (s + f) s (mkBeta a b) = p /\ holds out [Beta_alpha p; Beta_beta p].
Proof. exact two_categories_update. Qed.

Example C75_two_categories_case :
  holds (CList [1; 1]) [1; 1] /\ holds (CArr (as_array [3; 7])) [3; 7] /\ ~ concatenates (CList [1; 1]) (CArr (as_array [3; 7])).
Proof.
  split; [reflexivity|]. split; [|intros []]. split; [reflexivity|].
  intros i d Hi. simpl in Hi. destruct i as [|[|i]]; [reflexivity|reflexivity|lia].
Qed.
Print Assumptions C75_two_categories.

(** ... the density is that of the Beta distribution ... *)
Theorem C75_two_categories_density :
  forall (a b p : R), 0 < a -> 0 < b -> 0 < p < 1 ->
  dirichlet_pdf [a; b] [p; 1 - p] = pdf (Beta_dist (mkBeta a b)) p.
Proof. exact two_categories_density. Qed.
Print Assumptions C75_two_categories_density.

(** ... and the predictive is the BetaBinomial one. *)
Theorem C75_two_categories_predictive :
  forall (a b : R) (n k : nat), 0 < a -> 0 < b -> (k <= n)%nat ->
  dirichlet_multinomial_pmf [a; b] n [k; n - k]%nat = pmf (BetaBinomial_dist (mkBetaBinomial (INR n) a b)) (Z.of_nat k).
Proof. exact two_categories_mass. Qed.
Print Assumptions C75_two_categories_predictive.

(** C76: a geometric observation is a negative binomial one with r = 1. *)
Theorem C76_geometric :
  forall (x n : R) (prior : Beta R),
  geometric_beta x n prior false = negative_binomial_beta 1 n x prior /\
  geometric_beta x n prior true = negative_binomial_beta 1 n (x - n) prior.
Proof. exact geometric_is_negative_binomial. Qed.

Example C76_geometric_case :
  geometric_beta 7 3 (mkBeta 1 2) true = mkBeta (1 + 3) (2 + 7 - 3) /\
  negative_binomial_beta 1 3 4 (mkBeta 1 2) = mkBeta (1 + 1 * 3) (2 + 4).
Proof. split; reflexivity. Qed.
Print Assumptions C76_geometric.

(** C76 is false for the predictives: the geometric one gives every number of
    failures the probability that the negative binomial one gives to one failure
    more, which is strictly smaller. *)
Theorem C76_geometric_predictive_refuted :
  forall (release : list nat) (d : Beta R) (k : nat),
  tuple_lt release [1; 12; 0]%nat = false -> 0 < Beta_alpha d -> 0 < Beta_beta d ->
  exists D, BetaNegativeBinomial_dist release (negative_binomial_beta_predictive 1 d) = Ok D /\
    pmf (BetaGeometric_dist (geometric_beta_predictive d false)) (Z.of_nat k) = pmf D (Z.of_nat k + 1) /\
    pmf (BetaGeometric_dist (geometric_beta_predictive d true)) (Z.of_nat k + 1) = pmf D (Z.of_nat k + 1) /\
    pmf D (Z.of_nat k + 1) < pmf D (Z.of_nat k).
Proof. exact geometric_predictive_shift. Qed.

Example C76_geometric_predictive_case :
  tuple_lt [1; 13; 0]%nat [1; 12; 0]%nat = false /\ 0 < Beta_alpha (mkBeta 2 3) /\ 0 < Beta_beta (mkBeta 2 3).
Proof. simpl. split; [reflexivity|lra]. Qed.
Print Assumptions C76_geometric_predictive_refuted.

(** C76: Pareto data with known minimum m are exponential after x -> ln(x / m). *)
Theorem C76_pareto :
  forall (xs : list R) (m : R) (prior : Gamma R),
  0 < m -> Forall (fun x => 0 < x) xs ->
  pareto_gamma ln (INR (length xs)) (sumR (map ln xs)) m prior =
  gamma_known_shape (sumR (map (fun x => ln (x / m)) xs)) (INR (length xs)) 1 prior.
Proof. exact pareto_is_exponential_of_logs. Qed.

Example C76_pareto_case : 0 < 2 /\ Forall (fun x => 0 < x) [3; 5; 2].
Proof. split; [lra|]. repeat constructor; lra. Qed.
Print Assumptions C76_pareto.

(** C76: inverse gamma data are gamma data after x -> 1 / x. *)
Theorem C76_inverse_gamma :
  forall (xs : list R) (alpha : R) (prior : Gamma R),
  inverse_gamma_known_rate (sumR (map Rinv xs)) (INR (length xs)) alpha prior =
  gamma_known_shape (sumR (map Rinv xs)) (INR (length xs)) alpha prior.
Proof. intros. apply inverse_gamma_is_gamma_of_reciprocals. Qed.
Print Assumptions C76_inverse_gamma.

(** C76: Weibull data with known shape are exponential after x -> x ^ shape; the
    prior on the scale has the parameters of the Gamma prior on the rate. *)
Theorem C76_weibull :
  forall (xs : list R) (shape a b : R),
  exists a' b',
    weibull_inverse_gamma_known_shape (INR (length xs)) (sumR (map (fun x => Rpower x shape) xs)) (mkInverseGamma a b) = mkInverseGamma a' b' /\
    gamma_known_shape (sumR (map (fun x => Rpower x shape) xs)) (INR (length xs)) 1 (mkGamma a b) = mkGamma a' b'.
Proof. exact weibull_is_exponential_of_powers. Qed.
Print Assumptions C76_weibull.

(** C76 is false for exponential data, which are gamma data of shape 1: the two
    functions agree when the statistics of one of them are exchanged, and only
    then (unless the total equals the number of observations). *)
Theorem C76_exponential_refuted :
  forall (x n : R) (prior : Gamma R),
  exponential_gamma n x prior = gamma_known_shape x n 1 prior /\
  (x <> n -> exponential_gamma x n prior <> gamma_known_shape x n 1 prior).
Proof. exact exponential_exchanged. Qed.

Example C76_exponential_case : exponential_gamma 10 4 (mkGamma 1 1) <> gamma_known_shape 10 4 1 (mkGamma 1 1).
Proof. apply exponential_exchanged. lra. Qed.
Print Assumptions C76_exponential_refuted.

(** C76: so for the predictives: those of Gamma(a, b) and of Gamma(b, a) agree. *)
Theorem C76_exponential_predictive :
  forall (a b x : R), 0 < a -> 0 < b -> 0 < x ->
  pdf (CompoundGamma_dist (gamma_known_shape_predictive (mkGamma a b) 1)) x
  = pdf (Lomax_dist (exponential_gamma_predictive (mkGamma b a))) x.
Proof. exact exponential_predictive_exchanged. Qed.
Print Assumptions C76_exponential_predictive.

(** C76: for every fixed rate, [gamma] and [gamma_known_rate] describe the same
    function of the shape, up to the factor exp(- q' beta) free of the shape. *)
Theorem C76_gamma_known_rate :
  forall (lgamma : R -> R) (p q r s x_prod x_total n alpha beta : R),
  let joint := gamma x_total x_prod n (mkGammaProportional p q r s) in
  let slice := gamma_known_rate x_prod n beta (mkGammaKnownRateProportional p r s) in
  GammaProportional_approx_log_likelihood ln lgamma joint alpha beta =
  GammaKnownRateProportional_approx_log_likelihood ln lgamma slice alpha beta - (q + x_total) * beta.
Proof. exact gamma_slices. Qed.
Print Assumptions C76_gamma_known_rate.

(** C76: what [hypergeometric_beta_binomial] returns is the predictive of
    [binomial_beta] with the population as the number of trials; its argument n
    plays no part. *)
Theorem C76_hypergeometric :
  forall (x n : R) (prior : BetaBinomial R),
  exists p, binomial_beta (BetaBinomial_n prior) x (mkBeta (BetaBinomial_alpha prior) (BetaBinomial_beta prior)) = p /\
  hypergeometric_beta_binomial x n prior = binomial_beta_predictive (BetaBinomial_n prior) p.
Proof. exact hypergeometric_is_binomial. Qed.
Print Assumptions C76_hypergeometric.

(** C76: [normal] makes the same update of a NormalInverseGamma and of a NormalGamma prior. *)
Theorem C76_normal_priors :
  forall M (x_total x2_total n m nu a b : R),
  exists m' nu' a' b',
    normal x_total x2_total n (PNIG (M := M) (mkNormalInverseGamma m a b None (Some nu))) =
      Ok (PNIG (mkNormalInverseGamma m' a' b' None (Some nu'))) /\
    normal x_total x2_total n (PNG (M := M) (mkNormalGamma m nu a b)) = Ok (PNG (mkNormalGamma m' nu' a' b')).
Proof. exact normal_priors_agree. Qed.
Print Assumptions C76_normal_priors.
