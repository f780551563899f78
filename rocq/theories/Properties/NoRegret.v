(** C107: the cost of learning the parameter, per unit of data, vanishes. *)

From Coq Require Import Reals Lra Lia ZArith.
From Verif Require Import Model.Num Model.Py Model.NdArray Model.DirichletModel Model.Dists Model.ScipyDist Model.Models.
From Verif Require Import Spec.Special Spec.Densities Spec.Bayes Spec.Simplex Spec.Prequential Spec.Joint Spec.Regret.
From Verif Require Import Proofs.NoRegret.
From Coq Require Import List.
Import ListNotations.
Open Scope R_scope.

(** C107: binomial counts, any proper beta prior, per trial. *)
Theorem C107_binomial_no_regret : forall prior : Beta R, 0 < Beta_alpha prior -> 0 < Beta_beta prior ->
  no_regret (fun p (o : nat * nat) => pmf (Binomial_dist (mkBinomial (INR (fst o)) p)) (Z.of_nat (snd o)))
    (fun d o => Ok (binomial_beta (INR (fst o)) (INR (snd o)) d))
    (fun d o => Ok (pmf (BetaBinomial_dist (binomial_beta_predictive (INR (fst o)) d)) (Z.of_nat (snd o))))
    (fun p => 0 < p < 1) (fun o => (snd o <= fst o)%nat) prior (fun data => sumN (map fst data)).
Proof. exact binomial_no_regret. Qed.

(** ten trials with three successes each, any number of times: data of any size exist *)
Example C107_binomial_no_regret_case : 0 < Beta_alpha (mkBeta (/ 2) 3) /\ 0 < Beta_beta (mkBeta (/ 2) 3) /\
  forall N : nat, exists data : list (nat * nat), Forall (fun o => (snd o <= fst o)%nat) data /\ (N <= sumN (map fst data))%nat.
Proof.
  simpl. split; [lra|]. split; [lra|]. intros N. exists (repeat (10, 3)%nat N). split.
  - apply Forall_forall. intros o Ho. apply repeat_spec in Ho. subst. simpl. lia.
  - induction N as [|N IH]; [lia|]. unfold sumN in *. cbn [repeat map fst fold_right]. lia.
Qed.

Print Assumptions C107_binomial_no_regret.

(** C107: counts in S n categories, uniform prior, per trial, *)
Theorem C107_multinomial_no_regret : forall n : nat,
  no_regret multinomial_pmf
    (fun d x => with_alpha (multinomial_dirichlet (CArr (as_array (map INR x)))) d)
    (fun d x => let P := multinomial_dirichlet_predictive (Some (INR (sumN x))) d in
       Ok (dirichlet_multinomial_pmf (alphas n (DirichletMultinomial_alpha P)) (Rnat (DirichletMultinomial_n P)) x))
    (probabilities n) (fun x => length x = S n) (Dirichlet_uninformative (S n)) (fun data => sumN (map sumN data)).
Proof. exact multinomial_no_regret. Qed.

Print Assumptions C107_multinomial_no_regret.

(** C107: and one category at a time. *)
Theorem C107_categorical_no_regret : forall n : nat,
  no_regret categorical_pmf
    (fun d k => with_alpha (categorical_dirichlet (CArr (as_array (map INR (counts n [k]))))) d)
    (fun d k => let P := categorical_dirichlet_predictive None d in
       Ok (dirichlet_multinomial_pmf (alphas n (DirichletMultinomial_alpha P)) (Rnat (DirichletMultinomial_n P)) (counts n [k])))
    (probabilities n) (fun k => (k <= n)%nat) (Dirichlet_uninformative (S n)) (fun data => length data).
Proof. exact categorical_no_regret. Qed.

Example C107_categorical_no_regret_case : probabilities 2 [/ 2; / 2; 0] /\
  forall N : nat, Forall (fun k => (k <= 2)%nat) (repeat 1%nat N) /\ length (repeat 1%nat N) = N.
Proof.
  split; [split; [reflexivity|]; split; [repeat constructor; lra|unfold sumR; simpl; lra]|]. intros N. split; [|apply repeat_length].
  apply Forall_forall. intros k Hk. apply repeat_spec in Hk. subst. lia.
Qed.

Print Assumptions C107_categorical_no_regret.

(** C107: negative binomial counts, any proper beta prior, for the releases of scipy that have
    the predictive; per failure and observation. *)
Theorem C107_negative_binomial_no_regret : forall (major minor micro : nat) (rest : list nat) (r : R) (prior : Beta R),
  0 < r -> (1 < major \/ (major = 1 /\ 12 <= minor))%nat -> 0 < Beta_alpha prior -> 0 < Beta_beta prior ->
  no_regret (fun p (x : nat) => pmf (NegativeBinomial_dist (mkNegativeBinomial r p)) (Z.of_nat x))
    (fun d x => Ok (negative_binomial_beta r 1 (INR x) d))
    (fun d x => let* D := BetaNegativeBinomial_dist (major :: minor :: micro :: rest) (negative_binomial_beta_predictive r d) in Ok (pmf D (Z.of_nat x)))
    (fun p => 0 < p < 1) (fun _ => True) prior (fun data => (length data + sumN data)%nat).
Proof. exact negbin_no_regret. Qed.

Example C107_negative_binomial_no_regret_case : 0 < 5 / 2 /\ (1 < 1 \/ (1 = 1 /\ 12 <= 14))%nat /\ (length [3; 0; 7] + sumN [3; 0; 7] = 13)%nat.
Proof. split; [lra|]. split; [lia|reflexivity]. Qed.

Print Assumptions C107_negative_binomial_no_regret.

(** C107: counts up to a bound, any proper gamma prior. *)
Theorem C107_poisson_no_regret : forall (prior : Gamma R) (M : nat), 0 < Gamma_alpha prior -> 0 < Gamma_beta prior ->
  no_regret (fun lam (x : nat) => pmf (Poisson_dist (mkPoisson lam)) (Z.of_nat x))
    (fun d x => Ok (poisson_gamma (INR x) 1 d))
    (fun d x => Ok (pmf (NegativeBinomial_dist (poisson_gamma_predictive d 1)) (Z.of_nat x)))
    (fun t => 0 < t) (fun x => (x <= M)%nat) prior (fun data => length data).
Proof. exact poisson_no_regret. Qed.

Example C107_poisson_no_regret_case : 0 < Gamma_alpha (mkGamma (/ 2) 1) /\ 0 < Gamma_beta (mkGamma (/ 2) 1) /\
  Forall (fun x => (x <= 5)%nat) [0; 5; 2]%nat.
Proof. simpl. split; [lra|]. split; [lra|]. repeat constructor. Qed.

Print Assumptions C107_poisson_no_regret.

(** C107: gamma data of known shape between two positive bounds, any proper gamma prior; with
    shape one these are exponential data. *)
Theorem C107_gamma_known_shape_no_regret : forall (shape : R) (prior : Gamma R) (m M : R), 0 < shape -> 0 < Gamma_alpha prior -> 0 < Gamma_beta prior -> 0 < m ->
  no_regret (fun rate x => pdf (Gamma_dist (mkGamma shape rate)) x)
    (fun d x => Ok (gamma_known_shape x 1 shape d))
    (fun d x => Ok (pdf (CompoundGamma_dist (gamma_known_shape_predictive d shape)) x))
    (fun t => 0 < t) (fun x => m <= x <= M) prior (fun data => length data).
Proof. exact known_shape_no_regret. Qed.

Example C107_gamma_known_shape_no_regret_case : 0 < Gamma_alpha (mkGamma 1 (/ 3)) /\ 0 < Gamma_beta (mkGamma 1 (/ 3)) /\
  Forall (fun x => / 10 <= x <= 4) [/ 2; 3; 4].
Proof. simpl. split; [lra|]. split; [lra|]. repeat constructor; lra. Qed.

Print Assumptions C107_gamma_known_shape_no_regret.

(** C107: normal data of known mean whose distance from it is between two positive bounds, any
    proper prior of either family on the variance. *)
Theorem C107_normal_known_mean_no_regret : forall (mu : R) (prior : VariancePrior R) (m M : R), variance_ok prior -> 0 < m ->
  no_regret (fun v x => pdf (Normal_dist (mkNormal mu (sqrt v))) x)
    (fun d x => Ok (normal_known_mean x (x ^ 2) 1 mu d))
    (fun d x => Ok (pdf (StudentT_dist (normal_known_mean_predictive mu d)) x))
    (fun v => 0 < v) (fun x => m <= Rabs (x - mu) <= M) prior (fun data => length data).
Proof. exact known_mean_no_regret. Qed.

Example C107_normal_known_mean_no_regret_case : variance_ok (VSICS (mkScaledInverseChiSquared 2 1)) /\
  Forall (fun x => / 10 <= Rabs (x - 0) <= 4) [/ 2; 3].
Proof.
  split; [simpl; lra|]. constructor; [|constructor; [|constructor]]; rewrite Rabs_right; lra.
Qed.

Print Assumptions C107_normal_known_mean_no_regret.

(** C107: normal data of unknown mean and variance within some distance of a point, with a
    sample variance above some bound, any proper prior of either family. *)
Theorem C107_normal_both_no_regret : forall {M : Type} (prior : NormalPrior R M) (mu K s : R), normal_prior_ok prior -> 0 < s ->
  no_regret_for (fun p x => pdf (Normal_dist (mkNormal (fst p) (normal_obs_sd prior (snd p)))) x)
    (fun d x => normal x (x ^ 2) 1 d)
    (fun d x => let* t := normal_predictive d in Ok (pdf (StudentT_dist t) x))
    (fun p => 0 < snd p) prior (fun data => length data) (spread_data mu K s).
Proof. exact @normal_joint_no_regret. Qed.

Example C107_normal_both_no_regret_case : normal_prior_ok (M := R) (PNG (mkNormalGamma 0 (2 / 3) 1 1)) /\ spread_data 0 2 1 [-1; 1].
Proof.
  split; [simpl; lra|]. split.
  - constructor; [apply Rabs_le; lra|]. constructor; [apply Rabs_le; lra|]. constructor.
  - unfold sumR. simpl. replace ((-1 + (1 + 0)) / (1 + 1)) with 0 by field. lra.
Qed.

Print Assumptions C107_normal_both_no_regret.

(** C107: normal data of known variance within some distance of the prior mean, *)
Theorem C107_normal_no_regret : forall (var : R) (prior : Normal R) (K : R), 0 < var -> 0 < Normal_sigma prior ->
  no_regret (fun m x => pdf (Normal_dist (mkNormal m (sqrt var))) x)
    (fun d x => Ok (normal_known_variance x 1 var d))
    (fun d x => Ok (pdf (Normal_dist (normal_known_variance_predictive var d)) x))
    (fun _ => True) (fun x => Rabs (x - Normal_mu prior) <= K) prior (fun data => length data).
Proof. exact normal_no_regret. Qed.

Example C107_normal_no_regret_case : 0 < 2 /\ 0 < Normal_sigma (mkNormal 1 3) /\
  Forall (fun x => Rabs (x - Normal_mu (mkNormal 1 3)) <= 5) [-4; 0; 6].
Proof. simpl. split; [lra|]. split; [lra|]. constructor; [apply Rabs_le; lra|]. constructor; [apply Rabs_le; lra|]. constructor; [apply Rabs_le; lra|]. constructor. Qed.

Print Assumptions C107_normal_no_regret.

(** C107: and the bound on the data is needed. *)
Theorem C107_normal_unbounded : forall (var : R) (prior : Normal R), 0 < var -> 0 < Normal_sigma prior ->
  ~ no_regret (fun m x => pdf (Normal_dist (mkNormal m (sqrt var))) x)
    (fun d x => Ok (normal_known_variance x 1 var d))
    (fun d x => Ok (pdf (Normal_dist (normal_known_variance_predictive var d)) x))
    (fun _ => True) (fun _ => True) prior (fun data => length data).
Proof. exact normal_unbounded. Qed.

Example C107_normal_unbounded_case : 0 < 1 /\ 0 < Normal_sigma (mkNormal 0 1).
Proof. simpl. lra. Qed.

Print Assumptions C107_normal_unbounded.
