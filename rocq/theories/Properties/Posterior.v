(** C01-C17: the model functions return the Bayes posterior (or do not). *)

From Coq Require Import Reals Lra Psatz ZArith Lia Permutation.
From Coquelicot Require Import Coquelicot.
From Verif Require Import Model.Num Model.Py Model.Dists Model.ScipyDist Model.Models.
From Verif Require Import Spec.Special Spec.Densities Spec.Bayes Spec.Joint.
From Verif Require Import Analysis.GammaFacts Proofs.Conj Proofs.Predictive Proofs.Joint Proofs.Proportional Proofs.Refute Proofs.Sharp.
From Coq Require Import List.
Import ListNotations.
Open Scope R_scope.

Ltac side := simpl; repeat constructor; simpl; try lra; try lia.

(** C01: binomial_beta called with the totals is the normalised posterior of p for any list of (trials, successes). *)
Theorem C01_binomial_beta_posterior :
  forall (prior : Beta R) (data : list (nat * nat)),
  0 < Beta_alpha prior -> 0 < Beta_beta prior ->
  Forall (fun o => (snd o <= fst o)%nat) data ->
  bayes_posterior Fpos0 Fone (pdf (Beta_dist prior))
    (likelihood (fun p o => pmf (Binomial_dist (mkBinomial (INR (fst o)) p)) (Z.of_nat (snd o))) data)
    (pdf (Beta_dist (binomial_beta (INR (sumN (map fst data))) (INR (sumN (map snd data))) prior))).
Proof. exact binomial_beta_bayes. Qed.

Example C01_case :
  bayes_posterior Fpos0 Fone (pdf (S_beta 1 2))
    (likelihood (fun p o => pmf (S_binom (INR (fst o)) p) (Z.of_nat (snd o))) [(3, 2); (5, 1)]%nat) (pdf (S_beta 4 7)).
Proof. replace (S_beta 4 7) with (Beta_dist (binomial_beta (INR 8) (INR 3) (mkBeta 1 2))) by (cbv [Beta_dist binomial_beta]; simpl; f_equal; ring).
  apply (C01_binomial_beta_posterior (mkBeta 1 2) [(3, 2); (5, 1)]%nat); side. Qed.

Print Assumptions C01_binomial_beta_posterior.

(** C01: bernoulli_beta is binomial_beta with one trial. *)
Theorem C01_bernoulli_beta_is_binomial :
  forall (x : nat) (prior : Beta R), 0 < Beta_alpha prior -> 0 < Beta_beta prior -> (x <= 1)%nat ->
  bernoulli_beta (INR x) prior = binomial_beta 1 (INR x) prior /\
  bayes_posterior Fpos0 Fone (pdf (Beta_dist prior))
    (fun p => if Nat.eqb x 1 then p else 1 - p) (pdf (Beta_dist (bernoulli_beta (INR x) prior))).
Proof. exact bernoulli_beta_bayes. Qed.

Example C01_bernoulli_case :
  bernoulli_beta 1 (mkBeta 2 3) = mkBeta 3 3.
Proof. unfold bernoulli_beta, binomial_beta. simpl. f_equal; ring. Qed.

Print Assumptions C01_bernoulli_beta_is_binomial.

(** C02 *)
Theorem C02_negative_binomial_beta_posterior :
  forall (prior : Beta R) (r : R) (data : list nat),
  0 < Beta_alpha prior -> 0 < Beta_beta prior -> 0 < r ->
  bayes_posterior Fpos0 Fone (pdf (Beta_dist prior))
    (likelihood (fun p x => pmf (NegativeBinomial_dist (mkNegativeBinomial r p)) (Z.of_nat x)) data)
    (pdf (Beta_dist (negative_binomial_beta r (INR (length data)) (INR (sumN data)) prior))).
Proof. exact negative_binomial_beta_bayes. Qed.

Example C02_case :
  bayes_posterior Fpos0 Fone (pdf (S_beta 1 2))
    (likelihood (fun p x => pmf (S_nbinom 3 p) (Z.of_nat x)) [4; 0]%nat) (pdf (S_beta 7 6)).
Proof. replace (S_beta 7 6) with (Beta_dist (negative_binomial_beta 3 (INR 2) (INR 4) (mkBeta 1 2))) by (cbv [Beta_dist negative_binomial_beta]; simpl; f_equal; ring).
  apply (C02_negative_binomial_beta_posterior (mkBeta 1 2) 3 [4; 0]%nat); side. Qed.

Print Assumptions C02_negative_binomial_beta_posterior.

(** C03: both start conventions. *)
Theorem C03_geometric_beta_posterior :
  forall (prior : Beta R) (one_start : bool) (data : list Z),
  0 < Beta_alpha prior -> 0 < Beta_beta prior ->
  Forall (fun z => (if one_start then 1 else 0) <= z)%Z data ->
  bayes_posterior Fpos0 Fone (pdf (Beta_dist prior))
    (likelihood (fun p z => pmf (Geometric_dist (mkGeometric p one_start)) z) data)
    (pdf (Beta_dist (geometric_beta (sumR (map IZR data)) (INR (length data)) prior one_start))).
Proof. exact geometric_beta_bayes. Qed.

Example C03_case_one_start :
  bayes_posterior Fpos0 Fone (pdf (S_beta 1 2))
    (likelihood (fun p z => pmf (S_geom_loc p 0) z) [4; 1]%Z) (pdf (S_beta 3 5)).
Proof. replace (S_beta 3 5) with (Beta_dist (geometric_beta (sumR (map IZR [4; 1]%Z)) (INR 2) (mkBeta 1 2) true)) by (cbv [Beta_dist geometric_beta]; simpl; f_equal; ring).
  apply (C03_geometric_beta_posterior (mkBeta 1 2) true [4; 1]%Z); side. Qed.
Example C03_case_zero_start :
  bayes_posterior Fpos0 Fone (pdf (S_beta 1 2))
    (likelihood (fun p z => pmf (S_geom_loc p (-1)) z) [3; 0]%Z) (pdf (S_beta 3 5)).
Proof. replace (S_beta 3 5) with (Beta_dist (geometric_beta (sumR (map IZR [3; 0]%Z)) (INR 2) (mkBeta 1 2) false)) by (cbv [Beta_dist geometric_beta]; simpl; f_equal; ring).
  apply (C03_geometric_beta_posterior (mkBeta 1 2) false [3; 0]%Z); side. Qed.

Print Assumptions C03_geometric_beta_posterior.

(** C04 *)
Theorem C04_poisson_gamma_posterior :
  forall (prior : Gamma R) (data : list nat),
  0 < Gamma_alpha prior -> 0 < Gamma_beta prior ->
  bayes_posterior Fpos0 Finf (pdf (Gamma_dist prior))
    (likelihood (fun lam x => pmf (Poisson_dist (mkPoisson lam)) (Z.of_nat x)) data)
    (pdf (Gamma_dist (poisson_gamma (INR (sumN data)) (INR (length data)) prior))).
Proof. exact poisson_gamma_bayes. Qed.

Example C04_case :
  bayes_posterior Fpos0 Finf (pdf (Gamma_dist (mkGamma 1 2)))
    (likelihood (fun lam x => pmf (S_poisson lam) (Z.of_nat x)) [4; 0]%nat) (pdf (Gamma_dist (mkGamma 5 4))).
Proof. replace (mkGamma 5 4) with (poisson_gamma (INR 4) (INR 2) (mkGamma 1 2)) by (unfold poisson_gamma; simpl; f_equal; ring).
  apply (C04_poisson_gamma_posterior (mkGamma 1 2) [4; 0]%nat); side. Qed.

Print Assumptions C04_poisson_gamma_posterior.

(** C05 is false of the code: the two sufficient statistics are exchanged. *)
Theorem C05_exponential_gamma_posterior_refuted :
  exists (prior : Gamma R) (data : list R),
  0 < Gamma_alpha prior /\ 0 < Gamma_beta prior /\ Forall (fun x => 0 <= x) data /\
  ~ bayes_posterior Fpos0 Finf (pdf (Gamma_dist prior))
      (likelihood (fun rate x => pdf (S_expon_scale (/ rate)) x) data)
      (pdf (Gamma_dist (exponential_gamma (sumR data) (INR (length data)) prior))).
Proof. exists (mkGamma 1 1), [2]. repeat split; try (simpl; lra). repeat constructor; lra. exact exponential_gamma_not_bayes. Qed.

Print Assumptions C05_exponential_gamma_posterior_refuted.

(** C05, sharp: the result is the Bayes posterior only when the outcomes happen to sum to their number. *)
Theorem C05_exponential_gamma_posterior_iff :
  forall (prior : Gamma R) (data : list R),
  0 < Gamma_alpha prior -> 0 < Gamma_beta prior -> Forall (fun x => 0 <= x) data ->
  (bayes_posterior Fpos0 Finf (pdf (Gamma_dist prior))
    (likelihood (fun rate x => pdf (S_expon_scale (/ rate)) x) data)
    (pdf (Gamma_dist (exponential_gamma (sumR data) (INR (length data)) prior)))
   <-> sumR data = INR (length data)).
Proof. exact exponential_gamma_bayes_iff. Qed.

Example C05_case_data :
  sumR [1; 2] <> INR (length [1; 2]) /\ Forall (fun x => 0 <= x) [1; 2].
Proof. split. simpl. lra. side. Qed.

Print Assumptions C05_exponential_gamma_posterior_iff.

(** C05: the predictive is false too. *)
Theorem C05_exponential_gamma_predictive_refuted :
  exists (d : Gamma R) (x : R), 0 < Gamma_alpha d /\ 0 < Gamma_beta d /\ 0 <= x /\
  ~ marginal Fpos0 Finf (pdf (Gamma_dist d)) (fun rate => pdf (S_expon_scale (/ rate)) x)
      (pdf (Lomax_dist (exponential_gamma_predictive d)) x).
Proof. exists (mkGamma 1 2), 0. repeat split; try (simpl; lra). exact exponential_gamma_predictive_not_marginal. Qed.

Print Assumptions C05_exponential_gamma_predictive_refuted.

(** C05, sharp, predictive. *)
Theorem C05_exponential_gamma_predictive_iff :
  forall (d : Gamma R),
  0 < Gamma_alpha d -> 0 < Gamma_beta d ->
  ((forall x, 0 <= x -> marginal Fpos0 Finf (pdf (Gamma_dist d)) (fun rate => pdf (S_expon_scale (/ rate)) x)
     (pdf (Lomax_dist (exponential_gamma_predictive d)) x)) <-> Gamma_alpha d = Gamma_beta d).
Proof. exact exponential_gamma_predictive_iff. Qed.

Example C05_case_predictive :
  Gamma_alpha (mkGamma 1 2) <> Gamma_beta (mkGamma 1 2).
Proof. simpl. lra. Qed.

Print Assumptions C05_exponential_gamma_predictive_iff.

(** C05, what the code does compute: with the roles of alpha and beta exchanged (alpha rate, beta shape) both
    functions are right. *)
Theorem C05_exponential_gamma_swapped_partial :
  forall (prior : Gamma R) (data : list R),
  0 < Gamma_alpha prior -> 0 < Gamma_beta prior -> Forall (fun x => 0 <= x) data ->
  let as_dist d := S_gamma_scale (Gamma_beta d) (1 / Gamma_alpha d) in
  bayes_posterior Fpos0 Finf (pdf (as_dist prior))
    (likelihood (fun rate x => pdf (S_expon_scale (/ rate)) x) data)
    (pdf (as_dist (exponential_gamma (sumR data) (INR (length data)) prior))) /\
  (forall x, 0 <= x ->
    marginal Fpos0 Finf (pdf (as_dist prior)) (fun rate => pdf (S_expon_scale (/ rate)) x)
     (pdf (Lomax_dist (exponential_gamma_predictive prior)) x)).
Proof. exact exponential_gamma_swapped. Qed.

Example C05_case_swapped :
  exponential_gamma (sumR [1; 2]) (INR 2) (mkGamma 3 4) = mkGamma 6 6.
Proof. unfold exponential_gamma; simpl; f_equal; ring. Qed.

Print Assumptions C05_exponential_gamma_swapped_partial.

(** C05: calling it with the arguments exchanged gives the Bayes posterior. *)
Theorem C05_exponential_gamma_exchanged_partial :
  forall (prior : Gamma R) (data : list R),
  0 < Gamma_alpha prior -> 0 < Gamma_beta prior -> Forall (fun x => 0 <= x) data ->
  bayes_posterior Fpos0 Finf (pdf (Gamma_dist prior))
    (likelihood (fun rate x => pdf (S_expon_scale (/ rate)) x) data)
    (pdf (Gamma_dist (exponential_gamma (INR (length data)) (sumR data) prior))).
Proof. exact exponential_rate_bayes. Qed.

Example C05_case_exchanged :
  bayes_posterior Fpos0 Finf (pdf (Gamma_dist (mkGamma 3 4)))
    (likelihood (fun rate x => pdf (S_expon_scale (/ rate)) x) [1; 2; 5]) (pdf (Gamma_dist (mkGamma 6 12))).
Proof. replace (mkGamma 6 12) with (exponential_gamma (INR 3) (sumR [1; 2; 5]) (mkGamma 3 4)) by (unfold exponential_gamma; simpl; f_equal; ring).
  apply (C05_exponential_gamma_exchanged_partial (mkGamma 3 4) [1; 2; 5]); side. Qed.

Print Assumptions C05_exponential_gamma_exchanged_partial.

(** C06 *)
Theorem C06_gamma_known_shape_posterior :
  forall (prior : Gamma R) (alpha : R) (data : list R),
  0 < Gamma_alpha prior -> 0 < Gamma_beta prior -> 0 < alpha -> Forall (fun x => 0 < x) data ->
  bayes_posterior Fpos0 Finf (pdf (Gamma_dist prior))
    (likelihood (fun rate x => pdf (Gamma_dist (mkGamma alpha rate)) x) data)
    (pdf (Gamma_dist (gamma_known_shape (sumR data) (INR (length data)) alpha prior))).
Proof. exact gamma_known_shape_bayes. Qed.

Example C06_case :
  bayes_posterior Fpos0 Finf (pdf (Gamma_dist (mkGamma 3 4)))
    (likelihood (fun rate x => pdf (Gamma_dist (mkGamma 2 rate)) x) [1; 5]) (pdf (Gamma_dist (mkGamma 7 10))).
Proof. replace (mkGamma 7 10) with (gamma_known_shape (sumR [1; 5]) (INR 2) 2 (mkGamma 3 4)) by (unfold gamma_known_shape; simpl; f_equal; ring).
  apply (C06_gamma_known_shape_posterior (mkGamma 3 4) 2 [1; 5]); side. Qed.

Print Assumptions C06_gamma_known_shape_posterior.

(** C07 *)
Theorem C07_inverse_gamma_known_rate_posterior :
  forall (prior : Gamma R) (alpha : R) (data : list R),
  0 < Gamma_alpha prior -> 0 < Gamma_beta prior -> 0 < alpha -> Forall (fun x => 0 < x) data ->
  bayes_posterior Fpos0 Finf (pdf (Gamma_dist prior))
    (likelihood (fun rate x => pdf (InverseGamma_dist (mkInverseGamma alpha rate)) x) data)
    (pdf (Gamma_dist (inverse_gamma_known_rate (sumR (map Rinv data)) (INR (length data)) alpha prior))).
Proof. exact inverse_gamma_known_rate_bayes. Qed.

Example C07_case :
  bayes_posterior Fpos0 Finf (pdf (Gamma_dist (mkGamma 3 4)))
    (likelihood (fun rate x => pdf (InverseGamma_dist (mkInverseGamma 2 rate)) x) [/ 2; / 5]) (pdf (Gamma_dist (mkGamma 7 11))).
Proof. replace (mkGamma 7 11) with (inverse_gamma_known_rate (sumR (map Rinv [/ 2; / 5])) (INR 2) 2 (mkGamma 3 4)) by (unfold inverse_gamma_known_rate; simpl; rewrite !Rinv_inv; f_equal; ring).
  apply (C07_inverse_gamma_known_rate_posterior (mkGamma 3 4) 2 [/ 2; / 5]); side. Qed.

Print Assumptions C07_inverse_gamma_known_rate_posterior.

(** C08 *)
Theorem C08_normal_known_variance_posterior :
  forall (prior : Normal R) (var : R) (data : list R),
  0 < Normal_sigma prior -> 0 < var ->
  bayes_posterior Fminf Finf (pdf (Normal_dist prior))
    (likelihood (fun m x => pdf (Normal_dist (mkNormal m (sqrt var))) x) data)
    (pdf (Normal_dist (normal_known_variance (sumR data) (INR (length data)) var prior))).
Proof. exact normal_known_variance_bayes. Qed.

Example C08_case :
  0 < Normal_sigma (mkNormal 1 2) /\ Normal_mu (normal_known_variance (sumR [3; 5]) (INR 2) 4 (mkNormal 1 2)) = 3.
Proof. split. simpl; lra. simpl. field. Qed.

Print Assumptions C08_normal_known_variance_posterior.

(** C08: the precision variant, and agreement of the two. *)
Theorem C08_normal_known_precision_posterior :
  forall (prior : Normal R) (precision : R) (data : list R),
  0 < Normal_sigma prior -> 0 < precision ->
  normal_known_precision (sumR data) (INR (length data)) precision prior =
    normal_known_variance (sumR data) (INR (length data)) (/ precision) prior /\
  bayes_posterior Fminf Finf (pdf (Normal_dist prior))
    (likelihood (fun m x => pdf (Normal_dist (mkNormal m (/ sqrt precision))) x) data)
    (pdf (Normal_dist (normal_known_precision (sumR data) (INR (length data)) precision prior))).
Proof. exact normal_known_precision_bayes. Qed.

Example C08_case_precision :
  Normal_mu (normal_known_precision (sumR [3; 5]) (INR 2) (/ 4) (mkNormal 1 2)) = 3.
Proof. simpl. field. Qed.

Print Assumptions C08_normal_known_precision_posterior.

(** C09: both prior families. *)
Theorem C09_normal_known_mean_posterior :
  forall (prior : VariancePrior R) (mu : R) (data : list R),
  variance_ok prior ->
  bayes_posterior Fpos0 Finf (pdf (variance_dist prior))
    (likelihood (fun v x => pdf (Normal_dist (mkNormal mu (sqrt v))) x) data)
    (pdf (variance_dist (normal_known_mean (sumR data) (sumR (map (fun x => x ^ 2) data)) (INR (length data)) mu prior))).
Proof. exact normal_known_mean_bayes. Qed.

Example C09_case :
  variance_ok (VSICS (mkScaledInverseChiSquared 4 2)) /\
  normal_known_mean (sumR [1; 3]) (sumR (map (fun x => x ^ 2) [1; 3])) (INR 2) 1 (VSICS (mkScaledInverseChiSquared 4 2)) = VSICS (mkScaledInverseChiSquared 6 2).
Proof. split. simpl; lra. unfold normal_known_mean, ScaledInverseChiSquared_from_inverse_gamma. simpl. do 2 f_equal; field. Qed.

Print Assumptions C09_normal_known_mean_posterior.

(** C09: the two routes give the same density when the priors are the same density. *)
Theorem C09_normal_known_mean_routes_agree :
  forall (s : ScaledInverseChiSquared R) (ig : InverseGamma R) (mu : R) (data : list R),
  variance_ok (VSICS s) -> variance_ok (VIG ig) ->
  (forall v, pdf (variance_dist (VSICS s)) v = pdf (variance_dist (VIG ig)) v) ->
  forall v,
  pdf (variance_dist (normal_known_mean (sumR data) (sumR (map (fun x => x ^ 2) data)) (INR (length data)) mu (VSICS s))) v =
  pdf (variance_dist (normal_known_mean (sumR data) (sumR (map (fun x => x ^ 2) data)) (INR (length data)) mu (VIG ig))) v.
Proof. exact normal_known_mean_routes. Qed.

Example C09_case_routes :
  forall v, pdf (variance_dist (VSICS (mkScaledInverseChiSquared 4 2))) v = pdf (variance_dist (VIG (mkInverseGamma 2 4))) v.
Proof. intros v. simpl. replace (4 / 2) with 2 by lra. replace (4 * 2 / 2) with 4 by lra. reflexivity. Qed.

Print Assumptions C09_normal_known_mean_routes_agree.

(** C10: both prior families; the posterior is again a proper prior of the same family. *)
Theorem C10_normal_posterior :
  forall {M} (prior : NormalPrior R M) (data : list R),
  data <> [] -> normal_prior_ok prior ->
  exists post, normal (sumR data) (sumR (map (fun x => x ^ 2) data)) (INR (length data)) prior = Ok post /\
    normal_prior_ok post /\
    bayes_posterior2 Fminf Finf Fpos0 Finf (fun v => 0 < v)
     (normal_prior_pdf prior)
     (fun m v => likelihood (fun p x => pdf (Normal_dist (mkNormal (fst p) (normal_obs_sd prior (snd p)))) x) data (m, v))
     (normal_prior_pdf post) /\
    (forall v, normal_obs_sd post v = normal_obs_sd prior v).
Proof. exact @normal_bayes. Qed.

Example C10_case :
  normal_prior_ok (M := unit) (PNG (mkNormalGamma 0 1 1 1)) /\
  normal (sumR [1; 3]) (sumR (map (fun x => x ^ 2) [1; 3])) (INR 2) (PNG (M := unit) (mkNormalGamma 0 1 1 1)) =
    Ok (PNG (mkNormalGamma (4 / 3) 3 2 (10 / 3))).
Proof. split. simpl; lra. unfold normal, normal_update. simpl. do 3 f_equal; field. Qed.

Print Assumptions C10_normal_posterior.

(** C10: log_normal, for positive outcomes. *)
Theorem C10_log_normal_posterior :
  forall {M} (prior : NormalPrior R M) (data : list R),
  data <> [] -> Forall (fun x => 0 < x) data ->
  normal_prior_ok prior ->
  exists post, log_normal (sumR (map ln data)) (sumR (map (fun x => (ln x) ^ 2) data)) (INR (length data)) prior = Ok post /\
    normal_prior_ok post /\
    bayes_posterior2 Fminf Finf Fpos0 Finf (fun v => 0 < v)
     (normal_prior_pdf prior)
     (fun m v => likelihood (fun p x => lognormal_pdf (fst p) ((normal_obs_sd prior (snd p)) ^ 2) x) data (m, v))
     (normal_prior_pdf post).
Proof. exact @log_normal_bayes. Qed.

Example C10_case_log_normal :
  exists post, log_normal (sumR (map ln [1; 2])) (sumR (map (fun x => (ln x) ^ 2) [1; 2])) (INR (length [1; 2]))
    (PNIG (M := unit) (mkNormalInverseGamma 0 2 3 None (Some 1))) = Ok post /\ normal_prior_ok post.
Proof. destruct (C10_log_normal_posterior (PNIG (M := unit) (mkNormalInverseGamma 0 2 3 None (Some 1))) [1; 2]) as (post & H1 & H2 & _).
  discriminate. side. split; [reflexivity|]. split; [exists 1; split; [reflexivity|lra]|simpl; lra]. exists post; auto. Qed.

Print Assumptions C10_log_normal_posterior.

(** C11 *)
Theorem C11_uniform_pareto_posterior :
  forall (prior : Pareto R) (x : R) (l : list R),
  0 < Pareto_x_m prior -> 0 < Pareto_alpha prior -> Forall (fun y => 0 <= y) (x :: l) ->
  bayes_posterior Fpos0 Finf (pdf (Pareto_dist prior))
    (likelihood (fun theta y => pdf (Uniform_dist (mkUniform 0 theta)) y) (x :: l))
    (pdf (Pareto_dist (uniform_pareto Rmax (maxR x l) (INR (length (x :: l))) prior))).
Proof. exact uniform_pareto_bayes. Qed.

Example C11_case :
  bayes_posterior Fpos0 Finf (pdf (Pareto_dist (mkPareto 3 2)))
    (likelihood (fun theta y => pdf (S_uniform 0 theta) y) [1; 5]) (pdf (Pareto_dist (mkPareto 5 4))).
Proof. replace (mkPareto 5 4) with (uniform_pareto Rmax (maxR 1 [5]) (INR 2) (mkPareto 3 2)) by (unfold uniform_pareto; simpl; rewrite (Rmax_left 5 1), (Rmax_right 3 5) by lra; f_equal; ring).
  apply (C11_uniform_pareto_posterior (mkPareto 3 2) 1 [5]); side. Qed.

Print Assumptions C11_uniform_pareto_posterior.

(** C12 *)
Theorem C12_pareto_gamma_posterior :
  forall (prior : Gamma R) (x_m : R) (data : list R),
  0 < Gamma_alpha prior -> 0 < Gamma_beta prior -> 0 < x_m -> Forall (fun x => x_m <= x) data ->
  bayes_posterior Fpos0 Finf (pdf (Gamma_dist prior))
    (likelihood (fun shape x => pdf (Pareto_dist (mkPareto x_m shape)) x) data)
    (pdf (Gamma_dist (pareto_gamma ln (INR (length data)) (sumR (map ln data)) x_m prior))).
Proof. exact pareto_gamma_bayes. Qed.

Example C12_case :
  bayes_posterior Fpos0 Finf (pdf (Gamma_dist (mkGamma 3 2)))
    (likelihood (fun shape x => pdf (Pareto_dist (mkPareto 1 shape)) x) [exp 1; exp 4]) (pdf (Gamma_dist (mkGamma 5 7))).
Proof. assert (forall x, 0 <= x -> 1 <= exp x) by (intros; pose proof (exp_ineq1_le x); lra).
  replace (mkGamma 5 7) with (pareto_gamma ln (INR 2) (sumR (map ln [exp 1; exp 4])) 1 (mkGamma 3 2)) by (unfold pareto_gamma; simpl; rewrite !ln_exp, ln_1; f_equal; ring).
  apply (C12_pareto_gamma_posterior (mkGamma 3 2) 1 [exp 1; exp 4]); try (simpl; lra). repeat (constructor; [apply H; lra|]); constructor. Qed.

Print Assumptions C12_pareto_gamma_posterior.

(** C13 *)
Theorem C13_weibull_posterior :
  forall (prior : InverseGamma R) (beta : R) (data : list R),
  0 < InverseGamma_alpha prior -> 0 < InverseGamma_beta prior -> 0 < beta -> Forall (fun x => 0 < x) data ->
  bayes_posterior Fpos0 Finf (pdf (InverseGamma_dist prior))
    (likelihood (fun theta x => pdf (Weibull_dist (mkWeibull beta theta)) x) data)
    (pdf (InverseGamma_dist (weibull_inverse_gamma_known_shape (INR (length data)) (sumR (map (fun x => Rpower x beta) data)) prior))).
Proof. exact weibull_bayes. Qed.

Example C13_case :
  bayes_posterior Fpos0 Finf (pdf (InverseGamma_dist (mkInverseGamma 3 2)))
    (likelihood (fun theta x => pdf (Weibull_dist (mkWeibull 1 theta)) x) [1; 4]) (pdf (InverseGamma_dist (mkInverseGamma 5 7))).
Proof. replace (mkInverseGamma 5 7) with (weibull_inverse_gamma_known_shape (INR 2) (sumR (map (fun x => Rpower x 1) [1; 4])) (mkInverseGamma 3 2)) by (unfold weibull_inverse_gamma_known_shape; simpl; rewrite !Rpower_1 by lra; f_equal; ring).
  apply (C13_weibull_posterior (mkInverseGamma 3 2) 1 [1; 4]); side. Qed.

Print Assumptions C13_weibull_posterior.

(** C14: gamma. *)
Theorem C14_gamma_posterior :
  forall (prior : GammaProportional R) (data : list R),
  0 < GammaProportional_p prior -> Forall (fun x => 0 < x) data ->
  let ll d (t : R * R) := exp (GammaProportional_approx_log_likelihood ln (fun a => ln (Gamma_fun a)) d (fst t) (snd t)) in
  proportional (fun t => 0 < fst t /\ 0 < snd t)
    (ll (gamma (sumR data) (prodR data) (INR (length data)) prior))
    (fun t => ll prior t * likelihood (fun t x => pdf (Gamma_dist (mkGamma (fst t) (snd t))) x) data t).
Proof. exact gamma_proportional. Qed.

Example C14_case_gamma :
  gamma (sumR [2; 3]) (prodR [2; 3]) (INR 2) (mkGammaProportional 1 1 1 1) = mkGammaProportional 6 6 3 3.
Proof. unfold gamma; simpl; f_equal; ring. Qed.

Print Assumptions C14_gamma_posterior.

(** C14: gamma_known_rate. *)
Theorem C14_gamma_known_rate_posterior :
  forall (prior : GammaKnownRateProportional R) (b : R) (data : list R),
  0 < GammaKnownRateProportional_a prior -> 0 < b -> Forall (fun x => 0 < x) data ->
  let ll d a := exp (GammaKnownRateProportional_approx_log_likelihood ln (fun a => ln (Gamma_fun a)) d a b) in
  proportional (fun a => 0 < a)
    (ll (gamma_known_rate (prodR data) (INR (length data)) b prior))
    (fun a => ll prior a * likelihood (fun a x => pdf (Gamma_dist (mkGamma a b)) x) data a).
Proof. exact gamma_known_rate_proportional. Qed.

Example C14_case_gamma_known_rate :
  gamma_known_rate (prodR [2; 3]) (INR 2) 5 (mkGammaKnownRateProportional 1 1 1) = mkGammaKnownRateProportional 6 3 3.
Proof. unfold gamma_known_rate; simpl; f_equal; ring. Qed.

Print Assumptions C14_gamma_known_rate_posterior.

(** C14: beta. *)
Theorem C14_beta_posterior :
  forall (prior : BetaProportional R) (data : list R),
  0 < BetaProportional_p prior -> 0 < BetaProportional_q prior -> Forall (fun x => 0 < x < 1) data ->
  let ll d (t : R * R) := exp (BetaProportional_approx_log_likelihood ln (fun a => ln (Gamma_fun a)) d (fst t) (snd t)) in
  proportional (fun t => 0 < fst t /\ 0 < snd t)
    (ll (beta (prodR data) (prodR (map (fun x => 1 - x) data)) (INR (length data)) prior))
    (fun t => ll prior t * likelihood (fun t x => pdf (Beta_dist (mkBeta (fst t) (snd t))) x) data t).
Proof. exact beta_proportional. Qed.

Example C14_case_beta :
  beta (prodR [/ 2; / 4]) (prodR (map (fun x => 1 - x) [/ 2; / 4])) (INR 2) (mkBetaProportional 1 1 1) = mkBetaProportional (/ 8) (3 / 8) 3 /\ Forall (fun x => 0 < x < 1) [/ 2; / 4].
Proof. split. unfold beta; simpl; f_equal; field. repeat constructor; lra. Qed.

Print Assumptions C14_beta_posterior.

(** C15 *)
Theorem C15_von_mises_known_direction_posterior :
  forall (prior : VonMisesKnownDirectionProportional R) (mu : R) (data : list R),
  let ll d k := exp (VonMisesKnownDirectionProportional_approx_log_likelihood ln Bessel_i0 d k) in
  proportional (fun k => 0 < k)
    (ll (von_mises_known_direction (sumR (map (fun x => cos (x - mu)) data)) (INR (length data)) prior))
    (fun k => ll prior k * likelihood (fun k x => pdf (VonMises_dist (mkVonMises mu k)) x) data k).
Proof. exact von_mises_known_direction_proportional. Qed.

Example C15_case :
  von_mises_known_direction (sumR (map (fun x => cos (x - PI)) [PI; 0])) (INR 2) (mkVonMisesKnownDirectionProportional 3 1) = mkVonMisesKnownDirectionProportional 5 1.
Proof. unfold von_mises_known_direction; simpl. rewrite Rminus_diag_eq, cos_0 by auto. replace (0 - PI) with (- PI) by ring. rewrite cos_neg, cos_PI. f_equal; ring. Qed.

Print Assumptions C15_von_mises_known_direction_posterior.

(** C16 is false of the code: the concentration of the result is not that of the posterior (for any arctan2). *)
Theorem C16_von_mises_known_concentration_refuted :
  exists (a b kappa : R) (data : list R), 0 <= a /\ 0 < kappa /\ forall arctan2 : R -> R -> R,
  let post := von_mises_known_concentration sin cos arctan2 (sumR (map cos data)) (sumR (map sin data)) (INR (length data)) kappa
                (mkVonMisesKnownConcentration a b) in
  ~ proportional (fun _ => True)
    (fun mu => pdf (VonMises_dist (mkVonMises (VonMisesKnownConcentration_b post) (VonMisesKnownConcentration_a post))) mu)
    (fun mu => pdf (VonMises_dist (mkVonMises b a)) mu * likelihood (fun mu x => pdf (VonMises_dist (mkVonMises mu kappa)) x) data mu).
Proof. exists 1, 0, 1, [0]. split; [lra|split; [lra|]]. intros arctan2. exact (von_mises_known_concentration_not_bayes arctan2). Qed.

Print Assumptions C16_von_mises_known_concentration_refuted.

(** C16: the log_likelihood of the prior class is not the von Mises log density (a + cos instead of a * cos). *)
Theorem C16_von_mises_log_likelihood_refuted :
  exists a b : R, 0 <= a /\ ~ proportional (fun _ => True)
    (fun mu => exp (VonMisesKnownConcentration_log_likelihood cos ln Bessel_i0 (mkVonMisesKnownConcentration a b) mu))
    (fun mu => pdf (VonMises_dist (mkVonMises b a)) mu).
Proof. exists 2, 0. split; [lra|]. exact von_mises_log_likelihood_not_density. Qed.

Print Assumptions C16_von_mises_log_likelihood_refuted.

(** C16, the true posterior: resultant of the prior and kappa times the data. *)
Theorem C16_von_mises_true_posterior_partial :
  forall a b kappa (data : list R) (rho th : R),
  rho * cos th = a * cos b + kappa * sumR (map cos data) ->
  rho * sin th = a * sin b + kappa * sumR (map sin data) ->
  proportional (fun _ => True)
    (fun mu => pdf (VonMises_dist (mkVonMises th rho)) mu)
    (fun mu => pdf (VonMises_dist (mkVonMises b a)) mu * likelihood (fun mu x => pdf (VonMises_dist (mkVonMises mu kappa)) x) data mu).
Proof. exact von_mises_true_posterior. Qed.

Example C16_case_truth :
  2 * cos 0 = 1 * cos 0 + 1 * sumR (map cos [0]) /\ 2 * sin 0 = 1 * sin 0 + 1 * sumR (map sin [0]).
Proof. simpl. rewrite cos_0, sin_0. lra. Qed.

Print Assumptions C16_von_mises_true_posterior_partial.

(** C16, what holds: for kappa = 1 the direction is right (only the concentration is wrong). *)
Theorem C16_von_mises_direction_partial :
  forall (arctan2 : R -> R -> R) (a b n : R) (data : list R),
  is_arctan2 arctan2 ->
  let post := von_mises_known_concentration sin cos arctan2 (sumR (map cos data)) (sumR (map sin data)) n 1
                (mkVonMisesKnownConcentration a b) in
  exists conc, proportional (fun _ => True)
    (fun mu => pdf (VonMises_dist (mkVonMises (VonMisesKnownConcentration_b post) conc)) mu)
    (fun mu => pdf (VonMises_dist (mkVonMises b a)) mu * likelihood (fun mu x => pdf (VonMises_dist (mkVonMises mu 1)) x) data mu).
Proof. exact von_mises_direction_kappa_1. Qed.

Example C16_case_arctan2 :
  exists arctan2, is_arctan2 arctan2.
Proof. exact is_arctan2_exists. Qed.

Print Assumptions C16_von_mises_direction_partial.

(** C17 is false of the code. *)
Theorem C17_hypergeometric_refuted :
  exists (N n x : nat) (a b : R), 0 < a /\ 0 < b /\ (n <= N)%nat /\ (x <= n)%nat /\
  ~ proportional (fun m => m <= N)%nat
    (fun m => pmf (BetaBinomial_dist (hypergeometric_beta_binomial (INR x) (INR n) (mkBetaBinomial (INR N) a b))) (Z.of_nat m))
    (fun m => pmf (BetaBinomial_dist (mkBetaBinomial (INR N) a b)) (Z.of_nat m)
            * pmf (Hypergeometric_dist (mkHypergeometric (INR N) (INR m) (INR n))) (Z.of_nat x)).
Proof. exists 2%nat, 1%nat, 1%nat, 1, 1. split; [lra|split; [lra|split; [lia|split; [lia|]]]]. apply hypergeometric_never_bayes; lra || lia. Qed.

Example C17_case :
  0 < pmf (BetaBinomial_dist (hypergeometric_beta_binomial 1 1 (mkBetaBinomial 2 1 1))) 0 /\
  pmf (Hypergeometric_dist (mkHypergeometric 2 0 1)) 1 = 0.
Proof. exact hypergeometric_impossible. Qed.

Print Assumptions C17_hypergeometric_refuted.

(** C17, sharp: wrong for every sample of at least one item. *)
Theorem C17_hypergeometric_never_bayes :
  forall (N n x : nat) (a b : R),
  0 < a -> 0 < b -> (1 <= n <= N)%nat -> (x <= n)%nat ->
  ~ proportional (fun m => m <= N)%nat
    (fun m => pmf (BetaBinomial_dist (hypergeometric_beta_binomial (INR x) (INR n) (mkBetaBinomial (INR N) a b))) (Z.of_nat m))
    (fun m => pmf (BetaBinomial_dist (mkBetaBinomial (INR N) a b)) (Z.of_nat m)
            * pmf (Hypergeometric_dist (mkHypergeometric (INR N) (INR m) (INR n))) (Z.of_nat x)).
Proof. exact hypergeometric_never_bayes. Qed.

Example C17_case_never :
  (1 <= 4 <= 10)%nat /\ (2 <= 4)%nat.
Proof. lia. Qed.

Print Assumptions C17_hypergeometric_never_bayes.

(** C17: the number of draws has no influence. *)
Theorem C17_hypergeometric_ignores_draws_partial :
  forall (x n n' : R) (prior : BetaBinomial R),
  hypergeometric_beta_binomial x n prior = hypergeometric_beta_binomial x n' prior.
Proof. exact hypergeometric_ignores_n. Qed.

Print Assumptions C17_hypergeometric_ignores_draws_partial.

(** C17, the true posterior of M - x. *)
Theorem C17_hypergeometric_true_posterior_partial :
  forall (N n x : nat) (a b : R),
  0 < a -> 0 < b -> (x <= n)%nat -> (n <= N)%nat ->
  proportional (fun m => x <= m /\ m <= N - (n - x))%nat
    (fun m => pmf (BetaBinomial_dist (mkBetaBinomial (INR (N - n)) (a + INR x) (b + INR (n - x)))) (Z.of_nat (m - x)))
    (fun m => pmf (BetaBinomial_dist (mkBetaBinomial (INR N) a b)) (Z.of_nat m)
            * pmf (Hypergeometric_dist (mkHypergeometric (INR N) (INR m) (INR n))) (Z.of_nat x)).
Proof. exact hypergeometric_true_posterior. Qed.

Example C17_case_truth :
  (1 <= 1)%nat /\ (1 <= 2)%nat.
Proof. lia. Qed.

Print Assumptions C17_hypergeometric_true_posterior_partial.

