(** C88: evidence moves the posterior in the direction it points. *)

From Coq Require Import Reals Lra Lia ZArith.
From Coquelicot Require Import Coquelicot.
From Verif Require Import Model.Num Model.Py Model.Dists Model.ScipyDist Model.Models.
From Verif Require Import Spec.Densities Spec.Bayes Spec.Joint Spec.Limits Spec.Dominance.
From Verif Require Import Analysis.GammaFacts Proofs.Dominance.
From Coq Require Import List.
Import ListNotations.
Open Scope R_scope.

(** C88: more successes or fewer failures make the probability of success larger. *)
Theorem C88_binomial_beta :
  forall (n1 x1 n2 x2 : R) (prior : Beta R), 0 < Beta_alpha prior -> 0 < Beta_beta prior ->
  0 <= x1 <= x2 -> 0 <= n2 - x2 <= n1 - x1 -> x1 < x2 \/ n2 - x2 < n1 - x1 ->
  moved_up Fpos0 unit_interval (pdf (Beta_dist (binomial_beta n1 x1 prior))) (pdf (Beta_dist (binomial_beta n2 x2 prior))).
Proof. exact binomial_up. Qed.
Example C88_binomial_case : let prior := mkBeta 1 1 in
  0 < Beta_alpha prior /\ 0 < Beta_beta prior /\ 0 <= 3 <= 4 /\ 0 <= 10 - 4 <= 10 - 3 /\ 3 < 4.
Proof. simpl. lra. Qed.
Print Assumptions C88_binomial_beta.

(** C88: the longer the wait for the successes, the smaller their probability. *)
Theorem C88_negative_binomial_beta :
  forall (r n x1 x2 : R) (prior : Beta R), 0 < Beta_alpha prior -> 0 < Beta_beta prior -> 0 < r -> 0 <= n -> 0 <= x1 < x2 ->
  moved_up Fpos0 unit_interval (pdf (Beta_dist (negative_binomial_beta r n x2 prior))) (pdf (Beta_dist (negative_binomial_beta r n x1 prior))).
Proof. exact negative_binomial_down. Qed.
Example C88_negative_binomial_case : let prior := mkBeta 2 3 in 0 < Beta_alpha prior /\ 0 < Beta_beta prior /\ 0 < 5 /\ 0 <= 1 /\ 0 <= 2 < 9.
Proof. simpl. lra. Qed.
Print Assumptions C88_negative_binomial_beta.

Theorem C88_geometric_beta :
  forall (x1 x2 n : R) (one_start : bool) (prior : Beta R), 0 < Beta_alpha prior -> 0 < Beta_beta prior -> 0 <= n ->
  (if one_start then n else 0) <= x1 < x2 ->
  moved_up Fpos0 unit_interval (pdf (Beta_dist (geometric_beta x2 n prior one_start))) (pdf (Beta_dist (geometric_beta x1 n prior one_start))).
Proof. exact geometric_down. Qed.
Example C88_geometric_case : (if true then 3 else 0) <= 5 < 7.
Proof. lra. Qed.
Print Assumptions C88_geometric_beta.

(** C88: more events, or the same events in fewer intervals, make the rate larger. *)
Theorem C88_poisson_gamma :
  forall (x1 n1 x2 n2 : R) (prior : Gamma R), 0 < Gamma_alpha prior -> 0 < Gamma_beta prior ->
  0 <= x1 <= x2 -> 0 <= n2 <= n1 -> x1 < x2 \/ n2 < n1 ->
  moved_up Fpos0 positive (pdf (Gamma_dist (poisson_gamma x1 n1 prior))) (pdf (Gamma_dist (poisson_gamma x2 n2 prior))).
Proof. exact poisson_up. Qed.
Example C88_poisson_case : let prior := mkGamma 1 1 in
  0 < Gamma_alpha prior /\ 0 < Gamma_beta prior /\ 0 <= 12 <= 12 /\ 0 <= 4 <= 5 /\ (12 < 12 \/ 4 < 5).
Proof. simpl. lra. Qed.
Print Assumptions C88_poisson_gamma.

(** C88: larger gamma observations make the rate smaller. *)
Theorem C88_gamma_known_shape :
  forall (x1 x2 n shape : R) (prior : Gamma R), 0 < Gamma_alpha prior -> 0 < Gamma_beta prior -> 0 <= n -> 0 < shape -> 0 <= x1 < x2 ->
  moved_up Fpos0 positive (pdf (Gamma_dist (gamma_known_shape x2 n shape prior))) (pdf (Gamma_dist (gamma_known_shape x1 n shape prior))).
Proof. exact gamma_known_shape_down. Qed.
Example C88_gamma_known_shape_case : let prior := mkGamma 2 3 in 0 < Gamma_alpha prior /\ 0 < Gamma_beta prior /\ 0 <= 4 /\ 0 < 2 /\ 0 <= 2 < 9.
Proof. simpl. lra. Qed.
Print Assumptions C88_gamma_known_shape.

(** C88: larger reciprocals, that is smaller observations, make the rate of an inverse gamma smaller. *)
Theorem C88_inverse_gamma_known_rate :
  forall (x1 x2 n shape : R) (prior : Gamma R), 0 < Gamma_alpha prior -> 0 < Gamma_beta prior -> 0 <= n -> 0 < shape -> 0 <= x1 < x2 ->
  moved_up Fpos0 positive (pdf (Gamma_dist (inverse_gamma_known_rate x2 n shape prior))) (pdf (Gamma_dist (inverse_gamma_known_rate x1 n shape prior))).
Proof. exact inverse_gamma_known_rate_down. Qed.
Example C88_inverse_gamma_case : let prior := mkGamma 2 3 in 0 < Gamma_alpha prior /\ 0 < Gamma_beta prior /\ 0 <= 4 /\ 0 < 2 /\ 0 <= / 2 < 9 / 4.
Proof. simpl. lra. Qed.
Print Assumptions C88_inverse_gamma_known_rate.

(** C88: larger Pareto observations make the shape smaller, that is the tail heavier. *)
Theorem C88_pareto_gamma :
  forall (n l1 l2 x_m : R) (prior : Gamma R), 0 < Gamma_alpha prior -> 0 < Gamma_beta prior -> 0 <= n -> n * ln x_m <= l1 < l2 ->
  moved_up Fpos0 positive (pdf (Gamma_dist (pareto_gamma ln n l2 x_m prior))) (pdf (Gamma_dist (pareto_gamma ln n l1 x_m prior))).
Proof. exact pareto_down. Qed.
Example C88_pareto_case : 3 * ln 1 <= 2 < 5.
Proof. rewrite ln_1. lra. Qed.
Print Assumptions C88_pareto_gamma.

(** C88: larger Weibull observations make the scale larger. *)
Theorem C88_weibull :
  forall (n x1 x2 : R) (prior : InverseGamma R), 0 < InverseGamma_alpha prior -> 0 < InverseGamma_beta prior -> 0 <= n -> 0 <= x1 < x2 ->
  moved_up Fpos0 positive (pdf (InverseGamma_dist (weibull_inverse_gamma_known_shape n x1 prior)))
    (pdf (InverseGamma_dist (weibull_inverse_gamma_known_shape n x2 prior))).
Proof. exact weibull_up. Qed.
Example C88_weibull_case : let prior := mkInverseGamma 2 3 in 0 < InverseGamma_alpha prior /\ 0 < InverseGamma_beta prior /\ 0 <= 4 /\ 0 <= 2 < 9.
Proof. simpl. lra. Qed.
Print Assumptions C88_weibull.

(** C88: larger observations make the mean larger. *)
Theorem C88_normal_known_variance :
  forall (x1 x2 n var : R) (prior : Normal R), 0 < Normal_sigma prior -> 0 < var -> 0 <= n -> x1 < x2 ->
  moved_up Fminf any_real (pdf (Normal_dist (normal_known_variance x1 n var prior))) (pdf (Normal_dist (normal_known_variance x2 n var prior))).
Proof. exact normal_known_variance_up. Qed.
Example C88_normal_case : 0 < Normal_sigma (mkNormal (-3) 2) /\ 0 < 4 /\ 0 <= 7 /\ -10 < 5.
Proof. simpl. lra. Qed.
Print Assumptions C88_normal_known_variance.

Theorem C88_normal_known_precision :
  forall (x1 x2 n precision : R) (prior : Normal R), 0 < Normal_sigma prior -> 0 < precision -> 0 <= n -> x1 < x2 ->
  moved_up Fminf any_real (pdf (Normal_dist (normal_known_precision x1 n precision prior))) (pdf (Normal_dist (normal_known_precision x2 n precision prior))).
Proof. exact normal_known_precision_up. Qed.
Example C88_normal_precision_case : 0 < Normal_sigma (mkNormal 3 2) /\ 0 < / 4 /\ 0 <= 7 /\ -10 < -5.
Proof. simpl. lra. Qed.
Print Assumptions C88_normal_known_precision.

(** C88: data further from the known mean make the variance larger, for both families of priors. *)
Theorem C88_normal_known_mean :
  forall (mu : R) (xs ys : list R) (prior : VariancePrior R), variance_ok prior -> length xs = length ys ->
  deviations mu xs < deviations mu ys ->
  let posterior data := normal_known_mean (sumR data) (sumR (map (fun x => x ^ 2) data)) (INR (length data)) mu prior in
  moved_up Fpos0 positive (pdf (variance_dist (posterior xs))) (pdf (variance_dist (posterior ys))).
Proof. exact normal_known_mean_up. Qed.
Example C88_normal_known_mean_case :
  variance_ok (VSICS (mkScaledInverseChiSquared 1 1)) /\ length [1; 2] = length [1; -3] /\ deviations 1 [1; 2] < deviations 1 [1; -3].
Proof. unfold deviations, sumR. repeat split; simpl; lra. Qed.
Print Assumptions C88_normal_known_mean.

(** C88 refuted: longer waits make the rate of exponential data smaller, but the posterior
    of [exponential_gamma] moves up. *)
Theorem C88_exponential_gamma_refuted :
  forall (prior : Gamma R) (xs ys : list R) (px py : R -> R), 0 < Gamma_alpha prior -> 0 < Gamma_beta prior ->
  List.Forall (fun x => 0 <= x) xs -> List.Forall (fun y => 0 <= y) ys -> length xs = length ys -> sumR xs < sumR ys ->
  bayes_posterior Fpos0 Finf (pdf (Gamma_dist prior)) (likelihood (fun rate x => pdf (S_expon_scale (/ rate)) x) xs) px ->
  bayes_posterior Fpos0 Finf (pdf (Gamma_dist prior)) (likelihood (fun rate x => pdf (S_expon_scale (/ rate)) x) ys) py ->
  moved_up Fpos0 positive py px /\
  moved_up Fpos0 positive (pdf (Gamma_dist (exponential_gamma (sumR xs) (INR (length xs)) prior)))
    (pdf (Gamma_dist (exponential_gamma (sumR ys) (INR (length ys)) prior))).
Proof. exact exponential_wrong_way. Qed.

Example C88_exponential_case :
  let prior := mkGamma 1 1 in let xs := [1; 2] in let ys := [3; 2] in exists px py,
  List.Forall (fun x => 0 <= x) xs /\ List.Forall (fun y => 0 <= y) ys /\ length xs = length ys /\ sumR xs < sumR ys /\
  bayes_posterior Fpos0 Finf (pdf (Gamma_dist prior)) (likelihood (fun rate x => pdf (S_expon_scale (/ rate)) x) xs) px /\
  bayes_posterior Fpos0 Finf (pdf (Gamma_dist prior)) (likelihood (fun rate x => pdf (S_expon_scale (/ rate)) x) ys) py.
Proof. exact exponential_wrong_way_case. Qed.
Print Assumptions C88_exponential_gamma_refuted.
