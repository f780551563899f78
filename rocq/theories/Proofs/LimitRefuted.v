(** Where the limit is not the one intended: exponential_gamma and geometric_beta_predictive. *)

From Coq Require Import Reals Lra Lia ZArith.
From Coquelicot Require Import Coquelicot.
From Verif Require Import Model.Num Model.Py Model.NdArray Model.Dists Model.ScipyDist Model.Models.
From Verif Require Import Spec.Special Spec.Densities Spec.Bayes Spec.Joint Spec.Moments Spec.Normalised Spec.Limits.
From Verif Require Import Analysis.Improper Analysis.GammaBeta Analysis.GammaFacts Analysis.Concentration.
From Verif Require Import Proofs.Pdfs Proofs.Conj Proofs.Predictive Proofs.Limits Proofs.LimitModels Proofs.LimitPredictive.
Open Scope R_scope.

Definition n_ex (N : nat) : R := INR (N + 1).

Lemma n_ex_pos N : 0 < n_ex N.
Proof. unfold n_ex. apply lt_0_INR. lia. Qed.
Lemma n_ex_inf : is_lim_seq n_ex p_infty.
Proof. unfold n_ex. apply (is_lim_seq_incr_n INR 1). apply is_lim_seq_INR. Qed.
Lemma ratio_ex c : is_lim_seq (fun N => c * n_ex N / n_ex N) c.
Proof.
  apply is_lim_seq_ext with (fun _ => c); [|apply is_lim_seq_const]. intros N. pose proof (n_ex_pos N). field. lra.
Qed.

(** A sequence of gamma distributions cannot concentrate at two places: the test function is exp (- t), whose
    expectations are predictive probabilities. *)
Lemma gamma_concentrates_once (d : nat -> Gamma R) (l l' : R) : (forall N, 0 < Gamma_alpha (d N) /\ 0 < Gamma_beta (d N)) ->
  concentrates Fpos0 Finf positive (fun N => pdf (Gamma_dist (d N))) l -> concentrates Fpos0 Finf positive (fun N => pdf (Gamma_dist (d N))) l' -> l = l'.
Proof.
  intros Hd H H'.
  assert (K : forall t0, concentrates Fpos0 Finf positive (fun N => pdf (Gamma_dist (d N))) t0 ->
    is_lim_seq (fun N => pmf (NegativeBinomial_dist (poisson_gamma_predictive (d N) 1)) (Z.of_nat 0)) (exp (- t0))).
  { intros t0 C. assert (E : forall t, pmf (Poisson_dist (mkPoisson t)) (Z.of_nat 0) = exp (- t)).
    { intros t. unfold Poisson_dist. cbn [Poisson_lam]. rewrite poisson_pmf. simpl. field. }
    rewrite <- E. apply (C (fun t => pmf (Poisson_dist (mkPoisson t)) (Z.of_nat 0)) 1).
    - intros t Ht. rewrite E. unfold positive in Ht. rewrite Rabs_pos_eq by (left; apply exp_pos). rewrite <- exp_0. left. apply exp_increasing. lra.
    - apply poisson_along.
    - intros N. apply poisson_gamma_predictive_marginal; apply Hd. }
  pose proof (is_lim_seq_unique _ _ (K l H)) as U. pose proof (is_lim_seq_unique _ _ (K l' H')) as U'.
  rewrite U in U'. injection U' as U'. apply exp_inv in U'. lra.
Qed.

Lemma exponential_gamma_limit_refuted : ~ forall (n x : nat -> R) (prior : Gamma R) (rate : R),
  (forall N, 0 <= n N) -> is_lim_seq n p_infty -> (forall N, 0 <= x N) -> 0 < Gamma_alpha prior -> 0 < Gamma_beta prior -> 0 < rate ->
  is_lim_seq (fun N => x N / n N) (/ rate) ->
  concentrates Fpos0 Finf positive (fun N => pdf (Gamma_dist (exponential_gamma (x N) (n N) prior))) rate.
Proof.
  intros H. assert (P : forall N, 0 <= n_ex N) by (intros N; left; apply n_ex_pos).
  assert (X : forall N, 0 <= / 2 * n_ex N) by (intros N; specialize (P N); lra).
  specialize (H n_ex (fun N => / 2 * n_ex N) (mkGamma 1 1) 2 P n_ex_inf X Rlt_0_1 Rlt_0_1 ltac:(lra) (ratio_ex (/ 2))).
  pose proof (exponential_gamma_concentrates n_ex (fun N => / 2 * n_ex N) P n_ex_inf X (mkGamma 1 1) (/ 2) Rlt_0_1 Rlt_0_1 (ratio_ex (/ 2))) as H'.
  assert (2 = / 2); [|lra]. apply (gamma_concentrates_once (fun N => exponential_gamma (/ 2 * n_ex N) (n_ex N) (mkGamma 1 1))); [|exact H|exact H'].
  intros N. specialize (P N). specialize (X N). cbn. lra.
Qed.

Lemma geometric_limit_refuted : ~ forall (n x : nat -> R) (prior : Beta R) (one_start : bool) (p : R) (z : Z),
  (forall N, 0 <= n N) -> is_lim_seq n p_infty -> (forall N, 0 <= x N) -> 0 < Beta_alpha prior -> 0 < Beta_beta prior -> 0 < p <= 1 ->
  (forall N, (if one_start then n N else 0) <= x N) ->
  is_lim_seq (fun N => x N / n N) (if one_start then / p else / p - 1) -> ((if one_start then 1 else 0) <= z)%Z ->
  is_lim_seq (fun N => pmf (BetaGeometric_dist (geometric_beta_predictive (geometric_beta (x N) (n N) prior one_start) one_start)) z)
    (pmf (Geometric_dist (mkGeometric p one_start)) z).
Proof.
  intros H. assert (P : forall N, 0 <= n_ex N) by (intros N; left; apply n_ex_pos).
  assert (X : forall N, 0 <= 2 * n_ex N) by (intros N; specialize (P N); lra).
  assert (X1 : forall N, n_ex N <= 2 * n_ex N) by (intros N; specialize (P N); lra).
  assert (L : is_lim_seq (fun N => 2 * n_ex N / n_ex N) (/ / 2)) by (rewrite Rinv_inv; apply ratio_ex).
  specialize (H n_ex (fun N => 2 * n_ex N) (mkBeta 1 1) true (/ 2) 1%Z P n_ex_inf X Rlt_0_1 Rlt_0_1 ltac:(lra) X1 L ltac:(lia)).
  pose proof (geometric_beta_predictive_limit n_ex (fun N => 2 * n_ex N) P n_ex_inf X (mkBeta 1 1) true (/ 2) 1%Z Rlt_0_1 Rlt_0_1 ltac:(lra) X1 L ltac:(lia)) as H'.
  pose proof (is_lim_seq_unique _ _ H) as U. pose proof (is_lim_seq_unique _ _ H') as U'. assert (V : pmf (Geometric_dist (mkGeometric (/ 2) true)) 1 = pmf (Geometric_dist (mkGeometric (/ 2) true)) (1 + 1))
    by exact (f_equal real (eq_trans (eq_sym U) U')).
  assert (E : forall k, (1 <= k)%nat -> pmf (Geometric_dist (mkGeometric (/ 2) true)) (Z.of_nat k + 0) = (1 - / 2) ^ (k - 1) * / 2) by exact (geom_pmf (/ 2) 0%Z).
  pose proof (E 1%nat ltac:(lia)) as E1. pose proof (E 2%nat ltac:(lia)) as E2.
  change (Z.of_nat 1 + 0)%Z with 1%Z in E1. change (Z.of_nat 2 + 0)%Z with (1 + 1)%Z in E2. rewrite E1, E2 in V. simpl in V. lra.
Qed.
