(** C85: the exercises of scripts/parameter-recovery.py recover the true parameter. *)

From Coq Require Import Reals Lra Lia ZArith.
From Coquelicot Require Import Coquelicot.
From Verif Require Import Model.Num Model.Py Model.NdArray Model.Dists Model.ScipyDist Model.Models Model.Scripts.
From Verif Require Import Spec.Special Spec.Densities Spec.Bayes Spec.Joint Spec.Moments Spec.Normalised Spec.Limits Spec.Recovery.
From Verif Require Import Analysis.Improper Analysis.GammaBeta Analysis.GammaFacts.
From Verif Require Import Proofs.Pdfs Proofs.Conj Proofs.Joint Proofs.LimitModels Proofs.LimitNormal Proofs.Recovery Proofs.Quantiles.
From Coq Require Import List.
Import ListNotations.
Open Scope R_scope.

(** The examples are data sets repeating one block of observations ever more often. *)

(** C85: the average of binomial data is enough to recover the probability of success *)
Theorem C85_binomial :
  forall (prior : Beta R) (m : nat) (p : R), 0 < Beta_alpha prior -> 0 < Beta_beta prior -> (1 <= m)%nat -> 0 <= p <= 1 ->
  let s := recover_binomial prior (INR m) p in
  recovers (count_expectation (pmf (setup_dist s))) (fun x => 0 <= x <= INR m) [fun x => x]
    Fpos0 Fone unit_interval (fun data => pdf (Beta_dist (setup_posterior s data))) (setup_truth s).
Proof. exact binomial_recovers. Qed.

Example C85_binomial_case : exists data, ever_more (fun x => 0 <= x <= INR 10) data /\ averages_to data (fun x => x) (INR 10 * (3 / 10)).
Proof. exists (blocks [2; 4]). split; [apply blocks_more; [discriminate|repeat (apply Forall_cons || apply Forall_nil); simpl; lra]|]. replace (INR 10 * (3 / 10)) with (sumR (map (fun x => x) [2; 4]) / INR (length [2; 4])) by (simpl; replace (INR 10) with 10 by (simpl; ring); field). apply blocks_average. discriminate. Qed.

Print Assumptions C85_binomial.

(** C85: geometric data counted from 1 *)
Theorem C85_geometric :
  forall (prior : Beta R) (p : R), 0 < Beta_alpha prior -> 0 < Beta_beta prior -> 0 < p <= 1 ->
  let s := recover_geometric prior p in
  recovers (count_expectation (pmf (setup_dist s))) (fun x => 1 <= x) [fun x => x]
    Fpos0 Fone unit_interval (fun data => pdf (Beta_dist (setup_posterior s data))) (setup_truth s).
Proof. exact geometric_recovers. Qed.

Example C85_geometric_case : exists data, ever_more (fun x => 1 <= x) data /\ averages_to data (fun x => x) (/ (1 / 2)).
Proof. exists (blocks [1; 3]). split; [apply blocks_more; [discriminate|repeat (apply Forall_cons || apply Forall_nil); simpl; lra]|]. replace (/ (1 / 2)) with (sumR (map (fun x => x) [1; 3]) / INR (length [1; 3])) by (simpl; field). apply blocks_average. discriminate. Qed.

Print Assumptions C85_geometric.

(** C85: Poisson counts *)
Theorem C85_poisson :
  forall (prior : Gamma R) (lam : R), 0 < Gamma_alpha prior -> 0 < Gamma_beta prior ->
  let s := recover_poisson prior lam in
  recovers (count_expectation (pmf (setup_dist s))) (fun x => 0 <= x) [fun x => x]
    Fpos0 Finf positive (fun data => pdf (Gamma_dist (setup_posterior s data))) (setup_truth s).
Proof. exact poisson_recovers. Qed.

Example C85_poisson_case : exists data, ever_more (fun x => 0 <= x) data /\ averages_to data (fun x => x) (5 / 2).
Proof. exists (blocks [2; 3]). split; [apply blocks_more; [discriminate|repeat (apply Forall_cons || apply Forall_nil); simpl; lra]|]. replace (5 / 2) with (sumR (map (fun x => x) [2; 3]) / INR (length [2; 3])) by (simpl; field). apply blocks_average. discriminate. Qed.

Print Assumptions C85_poisson.

(** C85: negative binomial counts with known r *)
Theorem C85_negative_binomial :
  forall (prior : Beta R) (r p : R), 0 < Beta_alpha prior -> 0 < Beta_beta prior -> 0 < r -> 0 < p <= 1 ->
  let s := recover_negative_binomial prior r p in
  recovers (count_expectation (pmf (setup_dist s))) (fun x => 0 <= x) [fun x => x]
    Fpos0 Fone unit_interval (fun data => pdf (Beta_dist (setup_posterior s data))) (setup_truth s).
Proof. exact negative_binomial_recovers. Qed.

Example C85_negative_binomial_case : exists data, ever_more (fun x => 0 <= x) data /\ averages_to data (fun x => x) (5 * (1 - 1 / 2) / (1 / 2)).
Proof. exists (blocks [4; 6]). split; [apply blocks_more; [discriminate|repeat (apply Forall_cons || apply Forall_nil); simpl; lra]|]. replace (5 * (1 - 1 / 2) / (1 / 2)) with (sumR (map (fun x => x) [4; 6]) / INR (length [4; 6])) by (simpl; field). apply blocks_average. discriminate. Qed.

Print Assumptions C85_negative_binomial.

(** C85: normal data with known variance *)
Theorem C85_normal_known_variance :
  forall (prior : Normal R) (mu sigma : R), 0 < Normal_sigma prior -> 0 < sigma ->
  let s := recover_normal_known_variance prior mu sigma in
  recovers (real_expectation Fminf Finf (pdf (setup_dist s))) any_real [fun x => x]
    Fminf Finf any_real (fun data => pdf (Normal_dist (setup_posterior s data))) (setup_truth s).
Proof. exact normal_known_variance_recovers. Qed.

Example C85_normal_known_variance_case : exists data, ever_more any_real data /\ averages_to data (fun x => x) (-1).
Proof. exists (blocks [-3; 1]). split; [apply blocks_more; [discriminate|repeat (apply Forall_cons || apply Forall_nil); exact I]|]. replace (-1) with (sumR (map (fun x => x) [-3; 1]) / INR (length [-3; 1])) by (simpl; field). apply blocks_average. discriminate. Qed.

Print Assumptions C85_normal_known_variance.

(** C85: normal data with known precision *)
Theorem C85_normal_known_precision :
  forall (prior : Normal R) (mu tau : R), 0 < Normal_sigma prior -> 0 < tau ->
  let s := recover_normal_known_precision prior mu tau in
  recovers (real_expectation Fminf Finf (pdf (setup_dist s))) any_real [fun x => x]
    Fminf Finf any_real (fun data => pdf (Normal_dist (setup_posterior s data))) (setup_truth s).
Proof. exact normal_known_precision_recovers. Qed.

Print Assumptions C85_normal_known_precision.

(** C85: normal data with known mean, for both families of prior: the variance is recovered, not the standard deviation *)
Theorem C85_normal_known_mean :
  forall (prior : VariancePrior R) (mu sigma : R), variance_ok prior -> 0 < sigma ->
  let s := recover_normal_known_mean prior mu sigma in
  recovers (real_expectation Fminf Finf (pdf (setup_dist s))) any_real [(fun x => x); fun x => x ^ 2]
    Fpos0 Finf positive (fun data => pdf (variance_dist (setup_posterior s data))) (setup_truth s).
Proof. exact normal_known_mean_recovers. Qed.

Example C85_normal_known_mean_case : exists data, ever_more any_real data /\ Forall2 (averages_to data) [(fun x => x); fun x => x ^ 2] [3; 2 ^ 2 + 3 ^ 2].
Proof. exists (blocks [1; 5]). split; [apply blocks_more; [discriminate|repeat constructor]|]. constructor; [|constructor; [|constructor]]. - replace 3 with (sumR (map (fun x => x) [1; 5]) / INR (length [1; 5])) by (simpl; field). apply blocks_average. discriminate. - replace (2 ^ 2 + 3 ^ 2) with (sumR (map (fun x => x ^ 2) [1; 5]) / INR (length [1; 5])) by (simpl; field). apply blocks_average. discriminate. Qed.

Print Assumptions C85_normal_known_mean.

(** C85: uniform data: the posteriors concentrate at the upper end of the interval once the data come close to it, provided the prior does not rule it out *)
Theorem C85_uniform :
  forall (prior : Pareto R) (theta : R) (data : nat -> list R), 0 < Pareto_x_m prior -> 0 < Pareto_alpha prior -> Pareto_x_m prior <= theta ->
  let s := recover_uniform Rmax prior theta in
  ever_more (fun x => 0 < pdf (setup_dist s) x) data -> approaches theta data ->
  concentrates Fpos0 Finf positive (fun N => pdf (Pareto_dist (setup_posterior s (data N)))) (setup_truth s).
Proof. exact uniform_recovers. Qed.

Example C85_uniform_case : exists data, ever_more (fun x => 0 <= x <= 5) data /\ approaches 5 data.
Proof. exists (blocks [1; 5]). split; [apply blocks_more; [discriminate|repeat (apply Forall_cons || apply Forall_nil); simpl; lra]|]. intros c Hc. exists 0%nat. intros N _. unfold blocks. simpl. apply Exists_cons_tl, Exists_cons_hd. exact Hc. Qed.

Print Assumptions C85_uniform.

(** C85: exponential waiting times: the two readings of lam, a scale in Exponential and the reciprocal of a rate in exponential_gamma, agree with each other *)
Theorem C85_exponential :
  forall (prior : Gamma R) (lam : R), 0 < Gamma_alpha prior -> 0 < Gamma_beta prior -> 0 < lam ->
  let s := recover_exponential prior lam in
  recovers (real_expectation Fpos0 Finf (pdf (setup_dist s))) positive [fun x => x]
    Fpos0 Finf positive (fun data => pdf (Gamma_dist (setup_posterior s data))) (setup_truth s).
Proof. exact exponential_recovers. Qed.

Example C85_exponential_case : exists data, ever_more positive data /\ averages_to data (fun x => x) (5 / 2).
Proof. exists (blocks [2; 3]). split; [apply blocks_more; [discriminate|repeat (apply Forall_cons || apply Forall_nil); unfold positive; lra]|]. replace (5 / 2) with (sumR (map (fun x => x) [2; 3]) / INR (length [2; 3])) by (simpl; field). apply blocks_average. discriminate. Qed.

Print Assumptions C85_exponential.

(** C85: inverse gamma data with known shape, through the average of 1/x *)
Theorem C85_inverse_gamma_known_rate :
  forall (prior : Gamma R) (alpha beta : R), 0 < Gamma_alpha prior -> 0 < Gamma_beta prior -> 0 < alpha -> 0 < beta ->
  let s := recover_inverse_gamma_known_rate prior alpha beta in
  recovers (real_expectation Fpos0 Finf (pdf (setup_dist s))) positive [fun x => 1 / x]
    Fpos0 Finf positive (fun data => pdf (Gamma_dist (setup_posterior s data))) (setup_truth s).
Proof. exact inverse_gamma_known_rate_recovers. Qed.

Example C85_inverse_gamma_known_rate_case : exists data, ever_more positive data /\ averages_to data (fun x => 1 / x) (3 / 4).
Proof. exists (blocks [1; 2]). split; [apply blocks_more; [discriminate|repeat (apply Forall_cons || apply Forall_nil); unfold positive; lra]|]. replace (3 / 4) with (sumR (map (fun x => 1 / x) [1; 2]) / INR (length [1; 2])) by (simpl; field). apply blocks_average. discriminate. Qed.

Print Assumptions C85_inverse_gamma_known_rate.

(** C85: Weibull data with known shape, through the average of x^beta *)
Theorem C85_weibull :
  forall (prior : InverseGamma R) (beta theta : R), 0 < InverseGamma_alpha prior -> 0 < InverseGamma_beta prior -> 0 < beta -> 0 < theta ->
  let s := recover_weibull prior beta theta in
  recovers (real_expectation Fpos0 Finf (pdf (setup_dist s))) positive [fun x => Rpower x beta]
    Fpos0 Finf positive (fun data => pdf (InverseGamma_dist (setup_posterior s data))) (setup_truth s).
Proof. exact weibull_recovers. Qed.

Example C85_weibull_case : exists data, ever_more positive data /\ averages_to data (fun x => Rpower x 2) 4.
Proof. exists (blocks [2]). split; [apply blocks_more; [discriminate|repeat (apply Forall_cons || apply Forall_nil); unfold positive; simpl; lra]|]. replace 4 with (sumR (map (fun x => Rpower x 2) [2]) / INR (length [2])). { apply blocks_average. discriminate. } change (sumR (map (fun x => Rpower x 2) [2])) with (Rpower 2 2 + 0). replace (Rpower 2 2) with (2 ^ 2) by (rewrite <- (Rpower_pow 2 2) by lra; f_equal; simpl; ring). simpl. field. Qed.

Print Assumptions C85_weibull.

(** C85: normal data with unknown mean and precision: the Gamma component of the posterior recovers the precision *)
Theorem C85_normal_gamma :
  forall (prior : NormalGamma R) (mu tau : R),
  0 < NormalGamma_lam prior -> 0 < NormalGamma_alpha prior -> 0 < NormalGamma_beta prior -> 0 < tau ->
  let s := recover_normal_gamma prior mu tau in
  exists post, (forall data, data <> [] -> setup_posterior s data = Ok (post data)) /\
  recovers (real_expectation Fminf Finf (pdf (setup_dist s))) any_real [(fun x => x); fun x => x ^ 2]
    Fpos0 Finf positive (fun data => pdf (Gamma_dist (post data))) (setup_truth s).
Proof. exact normal_gamma_recovers. Qed.

Print Assumptions C85_normal_gamma.

(** C85: the exercise its author marks TODO does not recover anything: once the data are many, the second parameter of the posterior is negative and there is no posterior distribution *)
Theorem C85_hypergeometric_refuted :
  forall (N k n a b e : R) (data : nat -> list R), 0 < e -> ever_more (fun x => 0 <= x) data -> averages_to data (fun x => x) e ->
  exists K, forall M, (K <= M)%nat -> BetaBinomial_beta (setup_posterior (recover_hypergeometric N k n a b) (data M)) < 0.
Proof. exact hypergeometric_breaks. Qed.

Example C85_hypergeometric_refuted_case : BetaBinomial_beta (setup_posterior (recover_hypergeometric 100 10 10 1 1) (blocks [0; 2] 50)) = -1.
Proof. unfold blocks, recover_hypergeometric, hypergeometric_beta_binomial. cbn. ring. Qed.

Print Assumptions C85_hypergeometric_refuted.

(** C85: what that exercise sets out to recover is the number of marked items in the population its data are drawn from *)
Theorem C85_hypergeometric_truth :
  forall (N k n x : nat) (a b : R), (x <= k)%nat -> (x <= n)%nat -> (k <= N)%nat -> (n - x <= N - k)%nat ->
  let S := recover_hypergeometric (INR N) (INR k) (INR n) a b in
  exists t, setup_truth S = INR t /\ pmf (setup_dist S) (Z.of_nat x) = Binomial.C t x * Binomial.C (N - t) (n - x) / Binomial.C N n.
Proof. exact hypergeometric_truth. Qed.

Example C85_hypergeometric_truth_case : (2 <= 10)%nat /\ (10 <= 100)%nat /\ (10 - 2 <= 100 - 10)%nat.
Proof. repeat split; lia. Qed.

Print Assumptions C85_hypergeometric_truth.

(** C85: the credible interval the exercise plots shrinks to the true value: the quantiles of concentrating posteriors tend to the point where they concentrate *)
Theorem C85_quantiles :
  forall (I : R -> Prop) (Fa Fb : (R -> Prop) -> Prop), Ends I Fa Fb ->
  forall (f : nat -> R -> R) (truth p : R) (q : nat -> R),
  concentrates Fa Fb I f truth -> (forall N t, I t -> 0 <= f N t) -> I truth -> 0 < p < 1 ->
  (forall N, I (q N) /\ is_quantile Fa Fb (f N) p (q N)) -> is_lim_seq q truth.
Proof. exact quantiles_tend. Qed.

Example C85_quantiles_case : is_quantile Fpos0 Fone (fun _ => 1) (1 / 40) (1 / 40).
Proof. apply unit_quantile. lra. Qed.

Print Assumptions C85_quantiles.
