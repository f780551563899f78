(** C103: predicting with a learned parameter costs a known factor against the best
    parameter in hindsight. *)

From Coq Require Import Reals Lra Lia ZArith.
From Coquelicot Require Import Coquelicot.
From Verif Require Import Model.Num Model.Py Model.NdArray Model.DirichletModel Model.Dists Model.ScipyDist Model.Models.
From Verif Require Import Spec.Special Spec.Densities Spec.Bayes Spec.Simplex Spec.Prequential Spec.Joint Spec.Regret.
From Verif Require Import Analysis.GammaBeta Analysis.GammaFacts Proofs.Regret Proofs.RegretGamma Proofs.RegretBeta Proofs.RegretNormal Proofs.Conj.
From Coq Require Import List.
Import ListNotations.
Open Scope R_scope.

(** C103: binomial data, uniform prior: the factor is one more than the number of trials. *)
Theorem C103_binomial :
  regret_at_most (fun p (o : nat * nat) => pmf (Binomial_dist (mkBinomial (INR (fst o)) p)) (Z.of_nat (snd o)))
    (fun d o => Ok (binomial_beta (INR (fst o)) (INR (snd o)) d))
    (fun d o => Ok (pmf (BetaBinomial_dist (binomial_beta_predictive (INR (fst o)) d)) (Z.of_nat (snd o))))
    (fun p => 0 <= p <= 1) (fun o => (snd o <= fst o)%nat) Beta_uninformative
    (fun data => INR (S (sumN (map fst data)))).
Proof. exact binomial_regret. Qed.

Print Assumptions C103_binomial.

(** C103: Bernoulli data, uniform prior: the factor is one more than the number of observations, *)
Theorem C103_bernoulli :
  regret_at_most (fun p (x : nat) => if Nat.eqb x 1 then p else 1 - p)
    (fun d x => Ok (bernoulli_beta (INR x) d))
    (fun d x => Ok (pmf (BetaBinomial_dist (bernoulli_beta_predictive d)) (Z.of_nat x)))
    (fun p => 0 <= p <= 1) (fun x => (x <= 1)%nat) Beta_uninformative (fun data => INR (S (length data))).
Proof. exact bernoulli_regret. Qed.

(** two successes and a failure have probability 4/27 when the chance of success is 2/3;
    the loop gives this sequence at least a quarter of that *)
Example C103_bernoulli_case :
  exists e c, one_by_one (fun d x => Ok (bernoulli_beta (INR x) d))
    (fun d x => Ok (pmf (BetaBinomial_dist (bernoulli_beta_predictive d)) (Z.of_nat x))) Beta_uninformative [1; 0; 1]%nat = Ok (e, c) /\ / 27 <= c.
Proof.
  destruct (C103_bernoulli [1; 0; 1]%nat) as (e & c & E & H); [repeat constructor|].
  exists e, c. split; [exact E|]. specialize (H (2 / 3) ltac:(lra)). unfold likelihood in H. simpl in H. lra.
Qed.

Print Assumptions C103_bernoulli.

(** C103: and no smaller factor would do. *)
Theorem C103_bernoulli_reached :
  regret_reached (fun p (x : nat) => if Nat.eqb x 1 then p else 1 - p)
    (fun d x => Ok (bernoulli_beta (INR x) d))
    (fun d x => Ok (pmf (BetaBinomial_dist (bernoulli_beta_predictive d)) (Z.of_nat x)))
    (fun p => 0 <= p <= 1) (fun x => (x <= 1)%nat) Beta_uninformative (fun data => INR (S (length data))).
Proof. exact bernoulli_regret_reached. Qed.

Print Assumptions C103_bernoulli_reached.

(** C103: counts in S n categories, uniform prior: the factor is the number of ways to
    divide the total number of trials over the categories. *)
Theorem C103_multinomial : forall n : nat,
  regret_at_most multinomial_pmf
    (fun d x => with_alpha (multinomial_dirichlet (CArr (as_array (map INR x)))) d)
    (fun d x => let P := multinomial_dirichlet_predictive (Some (INR (sumN x))) d in
       Ok (dirichlet_multinomial_pmf (alphas n (DirichletMultinomial_alpha P)) (Rnat (DirichletMultinomial_n P)) x))
    (probabilities n) (fun x => length x = S n) (Dirichlet_uninformative (S n))
    (fun data => Binomial.C (sumN (map sumN data) + n) n).
Proof. exact multinomial_regret. Qed.

Example C103_multinomial_case :
  probabilities 2 [/ 2; / 2; 0] /\ Forall (fun x => length x = 3%nat) [[1; 2; 0]; [0; 1; 0]]%nat /\
  Binomial.C (sumN (map sumN [[1; 2; 0]; [0; 1; 0]]%nat) + 2) 2 = 15.
Proof.
  split; [|split; [repeat constructor|unfold Binomial.C; simpl; field]].
  split; [reflexivity|]. split; [repeat constructor; lra|]. unfold sumR. simpl. lra.
Qed.

Print Assumptions C103_multinomial.

(** C103: one category at a time, *)
Theorem C103_categorical : forall n : nat,
  regret_at_most categorical_pmf
    (fun d k => with_alpha (categorical_dirichlet (CArr (as_array (map INR (counts n [k]))))) d)
    (fun d k => let P := categorical_dirichlet_predictive None d in
       Ok (dirichlet_multinomial_pmf (alphas n (DirichletMultinomial_alpha P)) (Rnat (DirichletMultinomial_n P)) (counts n [k])))
    (probabilities n) (fun k => (k <= n)%nat) (Dirichlet_uninformative (S n))
    (fun data => Binomial.C (length data + n) n).
Proof. exact categorical_regret. Qed.

Print Assumptions C103_categorical.

(** C103: and no smaller factor would do. *)
Theorem C103_categorical_reached : forall n : nat,
  regret_reached categorical_pmf
    (fun d k => with_alpha (categorical_dirichlet (CArr (as_array (map INR (counts n [k]))))) d)
    (fun d k => let P := categorical_dirichlet_predictive None d in
       Ok (dirichlet_multinomial_pmf (alphas n (DirichletMultinomial_alpha P)) (Rnat (DirichletMultinomial_n P)) (counts n [k])))
    (probabilities n) (fun k => (k <= n)%nat) (Dirichlet_uninformative (S n))
    (fun data => Binomial.C (length data + n) n).
Proof. exact categorical_regret_reached. Qed.

Print Assumptions C103_categorical_reached.

(** C103: normal data of known variance, any proper prior on the mean, *)
Theorem C103_normal_known_variance : forall (var : R) (prior : Normal R), 0 < var -> 0 < Normal_sigma prior ->
  regret_at_most (fun m x => pdf (Normal_dist (mkNormal m (sqrt var))) x)
    (fun d x => Ok (normal_known_variance x 1 var d))
    (fun d x => Ok (pdf (Normal_dist (normal_known_variance_predictive var d)) x))
    (fun _ => True) (fun _ => True) prior (normal_factor var (Normal_mu prior) (Normal_sigma prior)).
Proof. exact normal_regret. Qed.

(** three observations that average to the prior mean, unit variances: the factor is 2 *)
Example C103_normal_known_variance_case : normal_factor 1 0 1 [-1; 0; 1] = 2.
Proof.
  unfold normal_factor, sumR. simpl. replace ((1 + (1 + 1 + 1) * (1 * (1 * 1))) / 1) with (2 * 2) by field.
  rewrite sqrt_square by lra. replace (-1 + (0 + (1 + 0))) with 0 by ring.
  match goal with |- _ * exp ?u = _ => replace u with 0 by (field; lra) end. rewrite exp_0. ring.
Qed.

Print Assumptions C103_normal_known_variance.

(** C103: and no smaller factor would do. *)
Theorem C103_normal_known_variance_reached : forall (var : R) (prior : Normal R), 0 < var -> 0 < Normal_sigma prior ->
  regret_reached (fun m x => pdf (Normal_dist (mkNormal m (sqrt var))) x)
    (fun d x => Ok (normal_known_variance x 1 var d))
    (fun d x => Ok (pdf (Normal_dist (normal_known_variance_predictive var d)) x))
    (fun _ => True) (fun _ => True) prior (normal_factor var (Normal_mu prior) (Normal_sigma prior)).
Proof. exact normal_regret_reached. Qed.

Print Assumptions C103_normal_known_variance_reached.

(** C103: Poisson data, any proper gamma prior on the rate, *)
Theorem C103_poisson : forall prior : Gamma R, 0 < Gamma_alpha prior -> 0 < Gamma_beta prior ->
  regret_at_most (fun lam (x : nat) => pmf (Poisson_dist (mkPoisson lam)) (Z.of_nat x))
    (fun d x => Ok (poisson_gamma (INR x) 1 d))
    (fun d x => Ok (pmf (NegativeBinomial_dist (poisson_gamma_predictive d 1)) (Z.of_nat x)))
    (fun t => 0 < t) (fun _ => True) prior
    (fun data => gamma_factor (Gamma_alpha prior) (Gamma_beta prior) (INR (sumN data)) (INR (length data))).
Proof. exact poisson_regret. Qed.

Print Assumptions C103_poisson.

(** C103: and no smaller factor would do for any data that are not all zero; *)
Theorem C103_poisson_exact : forall prior : Gamma R, 0 < Gamma_alpha prior -> 0 < Gamma_beta prior ->
  regret_exact (fun lam (x : nat) => pmf (Poisson_dist (mkPoisson lam)) (Z.of_nat x))
    (fun d x => Ok (poisson_gamma (INR x) 1 d))
    (fun d x => Ok (pmf (NegativeBinomial_dist (poisson_gamma_predictive d 1)) (Z.of_nat x)))
    (fun t => 0 < t) (fun _ => True) prior
    (fun data => gamma_factor (Gamma_alpha prior) (Gamma_beta prior) (INR (sumN data)) (INR (length data)))
    (fun data => (0 < sumN data)%nat).
Proof. exact poisson_regret_exact. Qed.

Print Assumptions C103_poisson_exact.

(** C103: gamma data of known shape, any proper gamma prior on the rate, *)
Theorem C103_gamma_known_shape : forall (alpha : R) (prior : Gamma R), 0 < alpha -> 0 < Gamma_alpha prior -> 0 < Gamma_beta prior ->
  regret_at_most (fun rate x => pdf (Gamma_dist (mkGamma alpha rate)) x)
    (fun d x => Ok (gamma_known_shape x 1 alpha d))
    (fun d x => Ok (pdf (CompoundGamma_dist (gamma_known_shape_predictive d alpha)) x))
    (fun t => 0 < t) (fun x => 0 < x) prior
    (fun data => gamma_factor (Gamma_alpha prior) (Gamma_beta prior) (INR (length data) * alpha) (sumR data)).
Proof. exact known_shape_regret. Qed.

Print Assumptions C103_gamma_known_shape.

(** C103: and no smaller factor would do for any data; *)
Theorem C103_gamma_known_shape_exact : forall (alpha : R) (prior : Gamma R), 0 < alpha -> 0 < Gamma_alpha prior -> 0 < Gamma_beta prior ->
  regret_exact (fun rate x => pdf (Gamma_dist (mkGamma alpha rate)) x)
    (fun d x => Ok (gamma_known_shape x 1 alpha d))
    (fun d x => Ok (pdf (CompoundGamma_dist (gamma_known_shape_predictive d alpha)) x))
    (fun t => 0 < t) (fun x => 0 < x) prior
    (fun data => gamma_factor (Gamma_alpha prior) (Gamma_beta prior) (INR (length data) * alpha) (sumR data))
    (fun data => data <> []).
Proof. exact known_shape_regret_exact. Qed.

Print Assumptions C103_gamma_known_shape_exact.

(** C103: a simple bound on this factor when alpha of the prior is at least one. *)
Theorem C103_gamma_factor : forall (alpha beta b : R) (k : nat), 1 <= alpha -> 0 < beta -> 0 < b ->
  gamma_factor alpha beta (INR k) b <= Rpower (1 + b / beta) alpha * (1 + beta / b) ^ k.
Proof. exact (fun alpha beta b k => gamma_factor_le alpha beta k b). Qed.

(** three counts summing to two, unit prior: the loop gives them at least 9/64 of their best probability *)
Example C103_poisson_case : exists e c,
  one_by_one (fun d x => Ok (poisson_gamma (INR x) 1 d))
    (fun d x => Ok (pmf (NegativeBinomial_dist (poisson_gamma_predictive d 1)) (Z.of_nat x))) (mkGamma 1 1) [0; 2; 0]%nat = Ok (e, c) /\
  (forall t, 0 < t -> likelihood (fun lam (x : nat) => pmf (Poisson_dist (mkPoisson lam)) (Z.of_nat x)) [0; 2; 0]%nat t
     <= gamma_factor 1 1 (INR 2) (INR 3) * c) /\ gamma_factor 1 1 (INR 2) (INR 3) <= 64 / 9.
Proof.
  destruct (C103_poisson (mkGamma 1 1) ltac:(simpl; lra) ltac:(simpl; lra) [0; 2; 0]%nat ltac:(repeat constructor)) as (e & c & E & H).
  exists e, c. split; [exact E|]. split; [exact H|].
  eapply Rle_trans; [apply C103_gamma_factor; simpl; lra|]. rewrite Rpower_1 by (simpl; lra). right. simpl. field.
Qed.

Print Assumptions C103_gamma_factor.

(** C103: binomial counts, any proper beta prior, *)
Theorem C103_binomial_any_prior : forall prior : Beta R, 0 < Beta_alpha prior -> 0 < Beta_beta prior ->
  regret_at_most (fun p (o : nat * nat) => pmf (Binomial_dist (mkBinomial (INR (fst o)) p)) (Z.of_nat (snd o)))
    (fun d o => Ok (binomial_beta (INR (fst o)) (INR (snd o)) d))
    (fun d o => Ok (pmf (BetaBinomial_dist (binomial_beta_predictive (INR (fst o)) d)) (Z.of_nat (snd o))))
    (fun p => 0 < p < 1) (fun o => (snd o <= fst o)%nat) prior
    (fun data => beta_factor (Beta_alpha prior) (Beta_beta prior) (INR (sumN (map snd data))) (INR (sumN (map fst data)) - INR (sumN (map snd data)))).
Proof. exact binomial_any_regret. Qed.

Print Assumptions C103_binomial_any_prior.

(** C103: and no smaller factor would do for any data with successes and failures. *)
Theorem C103_binomial_any_prior_exact : forall prior : Beta R, 0 < Beta_alpha prior -> 0 < Beta_beta prior ->
  regret_exact (fun p (o : nat * nat) => pmf (Binomial_dist (mkBinomial (INR (fst o)) p)) (Z.of_nat (snd o)))
    (fun d o => Ok (binomial_beta (INR (fst o)) (INR (snd o)) d))
    (fun d o => Ok (pmf (BetaBinomial_dist (binomial_beta_predictive (INR (fst o)) d)) (Z.of_nat (snd o))))
    (fun p => 0 < p < 1) (fun o => (snd o <= fst o)%nat) prior
    (fun data => beta_factor (Beta_alpha prior) (Beta_beta prior) (INR (sumN (map snd data))) (INR (sumN (map fst data)) - INR (sumN (map snd data))))
    (fun data => (0 < sumN (map snd data) < sumN (map fst data))%nat).
Proof. exact binomial_any_regret_exact. Qed.

Example C103_binomial_any_prior_case : 0 < Beta_alpha (mkBeta 2 3) /\ 0 < Beta_beta (mkBeta 2 3) /\
  Forall (fun o => (snd o <= fst o)%nat) [(5, 2); (3, 0)]%nat /\ (0 < sumN (map snd [(5, 2); (3, 0)]) < sumN (map fst [(5, 2); (3, 0)]))%nat.
Proof. simpl. split; [lra|]. split; [lra|]. split; [repeat constructor; simpl; lia|]. unfold sumN. simpl. lia. Qed.

Print Assumptions C103_binomial_any_prior_exact.

(** C103: negative binomial counts, any proper beta prior, for the releases of scipy that have the predictive, *)
Theorem C103_negative_binomial : forall (major minor micro : nat) (rest : list nat) (r : R) (prior : Beta R),
  0 < r -> (1 < major \/ (major = 1 /\ 12 <= minor))%nat -> 0 < Beta_alpha prior -> 0 < Beta_beta prior ->
  regret_at_most (fun p (x : nat) => pmf (NegativeBinomial_dist (mkNegativeBinomial r p)) (Z.of_nat x))
    (fun d x => Ok (negative_binomial_beta r 1 (INR x) d))
    (fun d x => let* D := BetaNegativeBinomial_dist (major :: minor :: micro :: rest) (negative_binomial_beta_predictive r d) in Ok (pmf D (Z.of_nat x)))
    (fun p => 0 < p < 1) (fun _ => True) prior
    (fun data => beta_factor (Beta_alpha prior) (Beta_beta prior) (r * INR (length data)) (INR (sumN data))).
Proof. exact negbin_regret. Qed.

Print Assumptions C103_negative_binomial.

(** C103: and no smaller factor would do for any data that are not all zero. *)
Theorem C103_negative_binomial_exact : forall (major minor micro : nat) (rest : list nat) (r : R) (prior : Beta R),
  0 < r -> (1 < major \/ (major = 1 /\ 12 <= minor))%nat -> 0 < Beta_alpha prior -> 0 < Beta_beta prior ->
  regret_exact (fun p (x : nat) => pmf (NegativeBinomial_dist (mkNegativeBinomial r p)) (Z.of_nat x))
    (fun d x => Ok (negative_binomial_beta r 1 (INR x) d))
    (fun d x => let* D := BetaNegativeBinomial_dist (major :: minor :: micro :: rest) (negative_binomial_beta_predictive r d) in Ok (pmf D (Z.of_nat x)))
    (fun p => 0 < p < 1) (fun _ => True) prior
    (fun data => beta_factor (Beta_alpha prior) (Beta_beta prior) (r * INR (length data)) (INR (sumN data)))
    (fun data => (0 < sumN data)%nat).
Proof. exact negbin_regret_exact. Qed.

(** one observation of 1 with r = 1 and the uniform prior: the best probability, 1/4, is 3/2 times the predicted one *)
Example C103_negative_binomial_case : beta_factor 1 1 (1 * INR 1) (INR 1) = 3 / 2.
Proof.
  unfold beta_factor. change (INR 1) with 1. replace (1 / (1 * 1 + 1)) with (/ 2) by field. replace (1 * 1 / (1 * 1 + 1)) with (/ 2) by field.
  rewrite Rmult_1_r, !Rpower_1 by lra. rewrite Beta_fun_succ_l, Beta_fun_succ_r by lra. pose proof (Beta_fun_pos 1 1 Rlt_0_1 Rlt_0_1). field. lra.
Qed.

Print Assumptions C103_negative_binomial_exact.

(** C103: normal data of known mean, any proper prior of either family on the variance; no
    observation equals the mean (with all of them equal to it the likelihood has no bound), *)
Theorem C103_normal_known_mean : forall (mu : R) (prior : VariancePrior R), variance_ok prior ->
  regret_at_most (fun v x => pdf (Normal_dist (mkNormal mu (sqrt v))) x)
    (fun d x => Ok (normal_known_mean x (x ^ 2) 1 mu d))
    (fun d x => Ok (pdf (StudentT_dist (normal_known_mean_predictive mu d)) x))
    (fun v => 0 < v) (fun x => x <> mu) prior
    (fun data => gamma_factor (variance_shape prior) (variance_scale prior) (INR (length data) / 2) (sumR (map (fun x => (x - mu) ^ 2) data) / 2)).
Proof. exact variance_regret. Qed.

Print Assumptions C103_normal_known_mean.

(** C103: and no smaller factor would do for any data. *)
Theorem C103_normal_known_mean_exact : forall (mu : R) (prior : VariancePrior R), variance_ok prior ->
  regret_exact (fun v x => pdf (Normal_dist (mkNormal mu (sqrt v))) x)
    (fun d x => Ok (normal_known_mean x (x ^ 2) 1 mu d))
    (fun d x => Ok (pdf (StudentT_dist (normal_known_mean_predictive mu d)) x))
    (fun v => 0 < v) (fun x => x <> mu) prior
    (fun data => gamma_factor (variance_shape prior) (variance_scale prior) (INR (length data) / 2) (sumR (map (fun x => (x - mu) ^ 2) data) / 2))
    (fun data => data <> []).
Proof. exact variance_regret_exact. Qed.

(** two observations at distance 1 from the mean, inverse gamma prior with shape and scale 1: the factor is 4 exp (-1) *)
Example C103_normal_known_mean_case : variance_ok (VSICS (mkScaledInverseChiSquared 2 1)) /\
  gamma_factor (variance_shape (VSICS (mkScaledInverseChiSquared 2 1))) (variance_scale (VSICS (mkScaledInverseChiSquared 2 1)))
    (INR 2 / 2) (sumR (map (fun x => (x - 0) ^ 2) [-1; 1]) / 2) = 4 * exp (- (1)).
Proof.
  split; [simpl; lra|]. unfold gamma_factor, sumR, variance_shape, variance_scale. simpl.
  replace (2 / 2) with 1 by field. replace (2 * 1 / 2) with 1 by field. replace ((1 + 1) / 2) with 1 by field.
  match goal with |- context [Rpower (1 + ?u) _] => replace u with 1 by field end.
  match goal with |- context [Rpower (1 / ?u) _] => replace (1 / u) with 1 by field end.
  rewrite !Rpower_1_l, Gamma_fun_succ by lra. replace (Rpower (1 + 1) (1 + 1)) with 4.
  - pose proof (Gamma_fun_pos 1 Rlt_0_1). field. lra.
  - replace (1 + 1) with (INR 2) at 2 by (simpl; ring). rewrite Rpower_pow by lra. ring.
Qed.

Print Assumptions C103_normal_known_mean_exact.

(** C103: normal data of unknown mean and variance, any proper prior of either family; the
    observations are not all equal (otherwise the likelihood has no bound), *)
Theorem C103_normal : forall {M : Type} (prior : NormalPrior R M), normal_prior_ok prior ->
  regret_at_most_for (fun p x => pdf (Normal_dist (mkNormal (fst p) (normal_obs_sd prior (snd p)))) x)
    (fun d x => normal x (x ^ 2) 1 d)
    (fun d x => let* t := normal_predictive d in Ok (pdf (StudentT_dist t) x))
    (fun p => 0 < snd p) prior (normal_joint_factor prior) not_all_equal.
Proof. exact @normal_joint_regret. Qed.

Print Assumptions C103_normal.

(** C103: and no smaller factor would do for any such data. *)
Theorem C103_normal_exact : forall {M : Type} (prior : NormalPrior R M), normal_prior_ok prior ->
  regret_exact (fun p x => pdf (Normal_dist (mkNormal (fst p) (normal_obs_sd prior (snd p)))) x)
    (fun d x => normal x (x ^ 2) 1 d)
    (fun d x => let* t := normal_predictive d in Ok (pdf (StudentT_dist t) x))
    (fun p => 0 < snd p) (fun _ => True) prior (normal_joint_factor prior) not_all_equal.
Proof. exact @normal_joint_regret_exact. Qed.

(** the observations -1 and 1: the factor is 8 exp (-1) *)
Example C103_normal_case : normal_prior_ok (M := R) (PNG (mkNormalGamma 0 (2 / 3) 1 1)) /\ not_all_equal [-1; 1] /\
  normal_joint_factor (M := R) (PNG (mkNormalGamma 0 (2 / 3) 1 1)) [-1; 1] = 8 * exp (- (1)).
Proof.
  split; [simpl; lra|]. split; [exists (-1), 1; simpl; repeat split; auto; lra|].
  unfold normal_joint_factor, joint_factor, sumR. simpl.
  replace ((2 / 3 + (1 + 1)) / (2 / 3)) with (2 * 2) by field. rewrite sqrt_square by lra.
  match goal with |- context [Rpower (1 + ?u + ?w) _] => replace (1 + u + w) with 2 by field end.
  match goal with |- context [Rpower ((1 + 1) / ?u) _] => replace ((1 + 1) / u) with 1 by field end.
  replace ((1 + 1) / 2) with 1 by field.
  rewrite !Rpower_1_l, Gamma_fun_succ by lra. replace (Rpower 2 (1 + 1)) with 4.
  - pose proof (Gamma_fun_pos 1 Rlt_0_1). field. lra.
  - replace (1 + 1) with (INR 2) by (simpl; ring). rewrite Rpower_pow by lra. ring.
Qed.

Print Assumptions C103_normal_exact.
