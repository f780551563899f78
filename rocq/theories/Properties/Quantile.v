(** C96: the quantiles and credible intervals of the continuous distributions
    ([dist.ppf], docs/examples/scipy-connection.md:8-19). *)

From Coq Require Import Reals Lra Lia ZArith.
From Coquelicot Require Import Coquelicot.
From Verif Require Import Model.Num Model.Py Model.Dists Model.ScipyDist Model.Models.
From Verif Require Import Spec.Densities Spec.Normalised Spec.Bayes Spec.Limits Spec.Dominance Spec.Quantile.
From Verif Require Import Proofs.Quantile.
Open Scope R_scope.

(** C96: every continuous distribution of the library has exactly one quantile for each
    probability strictly between 0 and 1. *)
Theorem C96_quantile :
  forall lo hi d q, valid lo hi d -> 0 < q < 1 -> exists! t, is_quantile lo hi (pdf d) q t.
Proof. intros lo hi d q V. exact (nice_quantile lo hi (pdf d) (valid_nice lo hi d V) q). Qed.
Example C96_quantile_case : valid 0 1 (Beta_dist (mkBeta (/ 2) 3)) /\ 0 < 0.1 < 1.
Proof. split; [apply V_Beta; simpl; lra|lra]. Qed.
Print Assumptions C96_quantile.

(** C96: and conversely every point of the support is the quantile of one probability; the
    probabilities below and above it add up to 1, and a larger point has a larger one. *)
Theorem C96_cdf :
  forall lo hi d, valid lo hi d ->
  (forall t, inside lo hi t -> exists p, 0 < p < 1 /\ at_most lo (pdf d) t p /\ at_least hi (pdf d) t (1 - p)) /\
  (forall s t p q, inside lo hi s -> inside lo hi t -> at_most lo (pdf d) s p -> at_most lo (pdf d) t q -> (s < t <-> p < q)).
Proof. intros lo hi d V. exact (conj (nice_curve lo hi (pdf d) (valid_nice lo hi d V)) (nice_increasing lo hi (pdf d) (valid_nice lo hi d V))). Qed.
Example C96_cdf_case : valid 0 p_infty (CompoundGamma_dist (mkCompoundGamma 2 3 (/ 2))) /\ inside 0 p_infty 5.
Proof. split; [apply V_CompoundGamma; simpl; lra|split; simpl; [lra|exact I]]. Qed.
Print Assumptions C96_cdf.

(** C96: there is exactly one central credible interval of each level; its ends are the
    quantiles of (1 - level) / 2 and (1 + level) / 2. *)
Theorem C96_credible :
  forall lo hi d level, valid lo hi d -> 0 < level < 1 ->
  (exists! ab, credible lo hi (pdf d) level ab) /\
  forall a b, credible lo hi (pdf d) level (a, b) <->
    is_quantile lo hi (pdf d) ((1 - level) / 2) a /\ is_quantile lo hi (pdf d) ((1 + level) / 2) b.
Proof.
  intros lo hi d level V L. exact (conj (nice_credible lo hi (pdf d) (valid_nice lo hi d V) level L)
    (fun a b => credible_quantiles lo hi (pdf d) (valid_nice lo hi d V) level a b L)).
Qed.
Example C96_credible_case : valid m_infty p_infty (StudentT_dist (mkStudentT (-2) 3 1)) /\ 0 < 0.95 < 1.
Proof. split; [apply V_StudentT; simpl; lra|lra]. Qed.
Print Assumptions C96_credible.

(** C96: the credible interval of a normal is its mean plus and minus a number of standard
    deviations that depends only on the level, and that of a Student t on the level and nu. *)
Theorem C96_normal_interval :
  forall level, 0 < level < 1 -> exists z, 0 < z /\ forall d : Normal R, 0 < Normal_sigma d ->
  credible m_infty p_infty (pdf (Normal_dist d)) level (Normal_mu d - z * Normal_sigma d, Normal_mu d + z * Normal_sigma d).
Proof. exact normal_interval. Qed.
Example C96_normal_case : 0 < 0.9 < 1 /\ 0 < Normal_sigma (mkNormal (-3) 2).
Proof. simpl. lra. Qed.
Print Assumptions C96_normal_interval.

Theorem C96_student_t_interval :
  forall nu level, 0 < nu -> 0 < level < 1 -> exists z, 0 < z /\ forall d : StudentT R, StudentT_nu d = nu -> 0 < StudentT_sigma d ->
  credible m_infty p_infty (pdf (StudentT_dist d)) level (StudentT_mu d - z * StudentT_sigma d, StudentT_mu d + z * StudentT_sigma d).
Proof. exact student_t_interval. Qed.
Example C96_student_t_case : 0 < 7 /\ StudentT_nu (mkStudentT 1 2 7) = 7 /\ 0 < StudentT_sigma (mkStudentT 1 2 7).
Proof. simpl. lra. Qed.
Print Assumptions C96_student_t_interval.

(** C96: data always make the credible interval of a normal mean with known variance narrower. *)
Theorem C96_normal_interval_narrows :
  forall level x n var (prior : Normal R) a b a' b', 0 < level < 1 -> 0 < Normal_sigma prior -> 0 < var -> 0 < n ->
  credible m_infty p_infty (pdf (Normal_dist prior)) level (a, b) ->
  credible m_infty p_infty (pdf (Normal_dist (normal_known_variance x n var prior))) level (a', b') -> b' - a' < b - a.
Proof. exact normal_interval_narrows. Qed.
Example C96_narrows_case : exists ab ab', let prior := mkNormal 0 10 in
  0 < Normal_sigma prior /\ 0 < 4 /\ 0 < 1 /\
  credible m_infty p_infty (pdf (Normal_dist prior)) 0.9 ab /\
  credible m_infty p_infty (pdf (Normal_dist (normal_known_variance 100 1 4 prior))) 0.9 ab'.
Proof.
  assert (P : 0 < Normal_sigma (mkNormal 0 10)) by (simpl; lra).
  assert (P' : 0 < Normal_sigma (normal_known_variance 100 1 4 (mkNormal 0 10))).
  { apply (Proofs.Moments.normal_known_variance_shrinks (mkNormal 0 10) 100 1 4); simpl; lra. }
  destruct (nice_credible _ _ _ (valid_nice _ _ _ (V_Normal _ P)) 0.9) as (ab & H & _); [lra|].
  destruct (nice_credible _ _ _ (valid_nice _ _ _ (V_Normal _ P')) 0.9) as (ab' & H' & _); [lra|].
  exists ab, ab'. repeat split; auto; lra.
Qed.
Print Assumptions C96_normal_interval_narrows.

(** C96: evidence moves every quantile, and so both ends of every credible interval. *)
Theorem C96_binomial_quantiles :
  forall n1 x1 n2 x2 (prior : Beta R) q t u, 0 < Beta_alpha prior -> 0 < Beta_beta prior ->
  0 <= x1 <= x2 -> 0 <= n2 - x2 <= n1 - x1 -> x1 < x2 \/ n2 - x2 < n1 - x1 ->
  is_quantile 0 1 (pdf (Beta_dist (binomial_beta n1 x1 prior))) q t ->
  is_quantile 0 1 (pdf (Beta_dist (binomial_beta n2 x2 prior))) q u -> t < u.
Proof. exact binomial_quantiles. Qed.
Example C96_binomial_case : 0 <= 3 <= 4 /\ 0 <= 10 - 4 <= 10 - 3 /\ (3 < 4 \/ 10 - 4 < 10 - 3) /\
  exists t, is_quantile 0 1 (pdf (Beta_dist (binomial_beta 10 3 (mkBeta 1 1)))) 0.025 t.
Proof.
  repeat split; try lra. destruct (C96_quantile 0 1 (Beta_dist (binomial_beta 10 3 (mkBeta 1 1))) 0.025) as (t & H & _).
  apply V_Beta; simpl; lra. lra. now exists t.
Qed.
Print Assumptions C96_binomial_quantiles.

Theorem C96_poisson_quantiles :
  forall x1 n1 x2 n2 (prior : Gamma R) q t u, 0 < Gamma_alpha prior -> 0 < Gamma_beta prior ->
  0 <= x1 <= x2 -> 0 <= n2 <= n1 -> x1 < x2 \/ n2 < n1 ->
  is_quantile 0 p_infty (pdf (Gamma_dist (poisson_gamma x1 n1 prior))) q t ->
  is_quantile 0 p_infty (pdf (Gamma_dist (poisson_gamma x2 n2 prior))) q u -> t < u.
Proof. exact poisson_quantiles. Qed.
Example C96_poisson_case : 0 <= 12 <= 12 /\ 0 <= 4 <= 5 /\ (12 < 12 \/ 4 < 5) /\
  exists t, is_quantile 0 p_infty (pdf (Gamma_dist (poisson_gamma 12 4 (mkGamma 1 1)))) (/ 2) t.
Proof.
  repeat split; try lra. destruct (C96_quantile 0 p_infty (Gamma_dist (poisson_gamma 12 4 (mkGamma 1 1))) (/ 2)) as (t & H & _).
  apply V_Gamma; simpl; lra. lra. now exists t.
Qed.
Print Assumptions C96_poisson_quantiles.

(** C96: the quantile functions that have a formula.  [Exponential] takes its argument as
    the scale, and [Uniform] its second argument as the width. *)
Theorem C96_formulas :
  forall q, 0 < q < 1 ->
  is_quantile 0 1 (pdf (Beta_dist (mkBeta 1 1))) q q /\
  (forall s, 0 < s -> is_quantile 0 p_infty (pdf (Exponential_dist (mkExponential s))) q (- s * ln (1 - q))) /\
  (forall l w : R, 0 < w -> is_quantile l (l + w) (pdf (Uniform_dist (mkUniform l w))) q (l + q * w)) /\
  (forall x_m a : R, 0 < x_m -> 0 < a -> is_quantile x_m p_infty (pdf (Pareto_dist (mkPareto x_m a))) q (x_m * Rpower (1 - q) (- (1) / a))) /\
  (forall a s, 0 < a -> 0 < s -> is_quantile 0 p_infty (pdf (Lomax_dist (mkLomax a s))) q (s * (Rpower (1 - q) (- (1) / a) - 1))) /\
  (forall b th, 0 < b -> 0 < th -> is_quantile 0 p_infty (pdf (Weibull_dist (mkWeibull b th))) q (Rpower (- th * ln (1 - q)) (1 / b))).
Proof. exact quantile_formulas. Qed.
Example C96_formulas_case : 0 < 0.975 < 1 /\ 0 < 1.5 /\ 0 < 20.
Proof. lra. Qed.
Print Assumptions C96_formulas.
