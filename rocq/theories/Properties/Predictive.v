(** C20-C27: the predictive functions return the marginal of the observation model (or do not). *)

From Coq Require Import Reals Lra Psatz ZArith Lia Permutation.
From Coquelicot Require Import Coquelicot.
From Verif Require Import Model.Num Model.Py Model.Dists Model.ScipyDist Model.Models.
From Verif Require Import Spec.Special Spec.Densities Spec.Bayes Spec.Joint Spec.Convolution.
From Verif Require Import Analysis.GammaFacts Proofs.Conj Proofs.Predictive Proofs.Joint Proofs.Refute Proofs.Arith Proofs.Sharp.
From Coq Require Import List.
Import ListNotations.
Open Scope R_scope.

Ltac side := simpl; repeat constructor; simpl; try lra; try lia.

(** C20 *)
Theorem C20_binomial_beta_predictive :
  forall (d : Beta R) (n k : nat),
  0 < Beta_alpha d -> 0 < Beta_beta d -> (k <= n)%nat ->
  marginal Fpos0 Fone (pdf (Beta_dist d)) (fun p => pmf (Binomial_dist (mkBinomial (INR n) p)) (Z.of_nat k))
    (pmf (BetaBinomial_dist (binomial_beta_predictive (INR n) d)) (Z.of_nat k)).
Proof. exact binomial_beta_predictive_marginal. Qed.

Example C20_case :
  marginal Fpos0 Fone (pdf (S_beta 2 3)) (fun p => pmf (S_binom (INR 4) p) 1) (pmf (S_betabinom (INR 4) 2 3) 1).
Proof. apply (C20_binomial_beta_predictive (mkBeta 2 3) 4 1); side. Qed.

Print Assumptions C20_binomial_beta_predictive.

(** C20: the predictive sums to one. *)
Theorem C20_binomial_beta_predictive_total :
  forall (d : Beta R) (n : nat),
  0 < Beta_alpha d -> 0 < Beta_beta d ->
  sum_f_R0 (fun k => pmf (BetaBinomial_dist (binomial_beta_predictive (INR n) d)) (Z.of_nat k)) n = 1.
Proof. exact binomial_beta_predictive_total. Qed.

Print Assumptions C20_binomial_beta_predictive_total.

(** C20: one trial. *)
Theorem C20_bernoulli_beta_predictive :
  forall (d : Beta R),
  0 < Beta_alpha d -> 0 < Beta_beta d ->
  pmf (BetaBinomial_dist (bernoulli_beta_predictive d)) 1 = Beta_alpha d / (Beta_alpha d + Beta_beta d).
Proof. exact bernoulli_predictive_success. Qed.

Example C20_case_bernoulli :
  pmf (BetaBinomial_dist (bernoulli_beta_predictive (mkBeta 2 3))) 1 = 2 / 5.
Proof. rewrite C20_bernoulli_beta_predictive by (simpl; lra). simpl. lra. Qed.

Print Assumptions C20_bernoulli_beta_predictive.

(** C21 *)
Theorem C21_negative_binomial_beta_predictive :
  forall (d : Beta R) (r : R) (k : nat) (rel : list nat) dist,
  0 < Beta_alpha d -> 0 < Beta_beta d -> 0 < r ->
  BetaNegativeBinomial_dist rel (negative_binomial_beta_predictive r d) = Ok dist ->
  marginal Fpos0 Fone (pdf (Beta_dist d)) (fun p => pmf (NegativeBinomial_dist (mkNegativeBinomial r p)) (Z.of_nat k))
    (pmf dist (Z.of_nat k)).
Proof. exact negative_binomial_beta_predictive_marginal. Qed.

Example C21_case :
  exists dist, BetaNegativeBinomial_dist [1; 12; 0]%nat (negative_binomial_beta_predictive 5 (mkBeta 2 3)) = Ok dist /\
  marginal Fpos0 Fone (pdf (S_beta 2 3)) (fun p => pmf (S_nbinom 5 p) 7) (pmf dist 7).
Proof. eexists. split. reflexivity. eapply (C21_negative_binomial_beta_predictive (mkBeta 2 3) 5 7 [1; 12; 0]%nat); try (simpl; lra). reflexivity. Qed.

Print Assumptions C21_negative_binomial_beta_predictive.

(** C22 is false of the code: the mass function is off by one. *)
Theorem C22_geometric_beta_predictive_refuted :
  exists (d : Beta R) (one_start : bool) (k : Z), 0 < Beta_alpha d /\ 0 < Beta_beta d /\ ((if one_start then 1 else 0) <= k)%Z /\
  ~ marginal Fpos0 Fone (pdf (Beta_dist d)) (fun p => pmf (Geometric_dist (mkGeometric p one_start)) k)
    (pmf (BetaGeometric_dist (geometric_beta_predictive d one_start)) k).
Proof. exists (mkBeta 1 1), true, 1%Z. split; [simpl; lra|split; [simpl; lra|split; [lia|]]]. exact geometric_beta_predictive_not_marginal. Qed.

Print Assumptions C22_geometric_beta_predictive_refuted.

(** C22, sharp: every reported mass is too small, by exactly this factor. *)
Theorem C22_geometric_beta_predictive_too_small :
  forall (d : Beta R) (one_start : bool) (k : nat) m,
  0 < Beta_alpha d -> 0 < Beta_beta d ->
  let z := (Z.of_nat k + (if one_start then 1 else 0))%Z in
  marginal Fpos0 Fone (pdf (Beta_dist d)) (fun p => pmf (Geometric_dist (mkGeometric p one_start)) z) m ->
  pmf (BetaGeometric_dist (geometric_beta_predictive d one_start)) z =
    m * ((Beta_beta d + INR k) / (Beta_alpha d + Beta_beta d + INR k + 1)).
Proof. exact geometric_beta_predictive_too_small. Qed.

Example C22_case :
  exists m, marginal Fpos0 Fone (pdf (Beta_dist (mkBeta 1 2))) (fun p => pmf (Geometric_dist (mkGeometric p true)) 1) m.
Proof. eexists. apply (geometric_marginal (mkBeta 1 2) true 0); simpl; lra. Qed.

Print Assumptions C22_geometric_beta_predictive_too_small.

(** C22: the reported masses sum to beta / (alpha + beta), not to one. *)
Theorem C22_geometric_beta_predictive_mass :
  forall (d : Beta R) (one_start : bool),
  0 < Beta_alpha d -> 0 < Beta_beta d ->
  is_series (fun k => pmf (BetaGeometric_dist (geometric_beta_predictive d one_start))
     (Z.of_nat k + (if one_start then 1 else 0))) (Beta_beta d / (Beta_alpha d + Beta_beta d)).
Proof. exact geometric_beta_predictive_mass. Qed.

Example C22_case_mass :
  Beta_beta (mkBeta 1 1) / (Beta_alpha (mkBeta 1 1) + Beta_beta (mkBeta 1 1)) = 1 / 2.
Proof. simpl; lra. Qed.

Print Assumptions C22_geometric_beta_predictive_mass.

(** C22, what holds: the mass reported at z is the true mass at z + 1. *)
Theorem C22_geometric_beta_predictive_shifted_partial :
  forall (d : Beta R) (one_start : bool) (z : Z),
  0 < Beta_alpha d -> 0 < Beta_beta d -> ((if one_start then 0 else -1) <= z)%Z ->
  marginal Fpos0 Fone (pdf (Beta_dist d))
    (fun p => pmf (Geometric_dist (mkGeometric p one_start)) (z + 1))
    (pmf (BetaGeometric_dist (geometric_beta_predictive d one_start)) z).
Proof. exact geometric_beta_predictive_shifted. Qed.

Example C22_case_shifted :
  marginal Fpos0 Fone (pdf (S_beta 1 2)) (fun p => pmf (Geometric_dist (mkGeometric p true)) 4)
    (pmf (BetaGeometric_dist (geometric_beta_predictive (mkBeta 1 2) true)) 3).
Proof. apply (C22_geometric_beta_predictive_shifted_partial (mkBeta 1 2) true 3); simpl; lra || lia. Qed.

Print Assumptions C22_geometric_beta_predictive_shifted_partial.

(** C22, what holds: the zero-start mass function is the one-start mass function shifted by one. *)
Theorem C22_geometric_beta_predictive_start_partial :
  forall (d : Beta R) (z : Z),
  0 < Beta_alpha d -> 0 < Beta_beta d -> (-1 <= z)%Z ->
  pmf (BetaGeometric_dist (geometric_beta_predictive d false)) z =
  pmf (BetaGeometric_dist (geometric_beta_predictive d true)) (z + 1).
Proof. exact beta_geometric_start. Qed.

Example C22_case_start :
  (0 <= 3)%Z.
Proof. lia. Qed.

Print Assumptions C22_geometric_beta_predictive_start_partial.

(** C23, one unit. *)
Theorem C23_poisson_gamma_predictive :
  forall (d : Gamma R) (k : nat),
  0 < Gamma_alpha d -> 0 < Gamma_beta d ->
  marginal Fpos0 Finf (pdf (Gamma_dist d)) (fun lam => pmf (Poisson_dist (mkPoisson lam)) (Z.of_nat k))
    (pmf (NegativeBinomial_dist (poisson_gamma_predictive d 1)) (Z.of_nat k)).
Proof. exact poisson_gamma_predictive_marginal. Qed.

Example C23_case :
  marginal Fpos0 Finf (pdf (Gamma_dist (mkGamma 2 3))) (fun lam => pmf (S_poisson lam) 4)
    (pmf (NegativeBinomial_dist (poisson_gamma_predictive (mkGamma 2 3) 1)) 4).
Proof. apply (C23_poisson_gamma_predictive (mkGamma 2 3) 4); simpl; lra. Qed.

Print Assumptions C23_poisson_gamma_predictive.

(** C23 is false for n units. *)
Theorem C23_poisson_gamma_predictive_units_refuted :
  exists (d : Gamma R) (n : R) (k : nat), 0 < Gamma_alpha d /\ 0 < Gamma_beta d /\ 0 < n /\
  ~ marginal Fpos0 Finf (pdf (Gamma_dist d)) (fun lam => pmf (Poisson_dist (mkPoisson (n * lam))) (Z.of_nat k))
     (pmf (NegativeBinomial_dist (poisson_gamma_predictive d n)) (Z.of_nat k)).
Proof. exists (mkGamma 1 1), 2, 0%nat. split; [simpl; lra|split; [simpl; lra|split; [lra|]]]. exact poisson_gamma_predictive_not_marginal. Qed.

Print Assumptions C23_poisson_gamma_predictive_units_refuted.

(** C23, sharp: right exactly for n = 1. *)
Theorem C23_poisson_gamma_predictive_units_iff :
  forall (d : Gamma R) (n : R),
  0 < Gamma_alpha d -> 0 < Gamma_beta d -> 0 < n ->
  ((forall k : nat, marginal Fpos0 Finf (pdf (Gamma_dist d)) (fun lam => pmf (Poisson_dist (mkPoisson (n * lam))) (Z.of_nat k))
     (pmf (NegativeBinomial_dist (poisson_gamma_predictive d n)) (Z.of_nat k))) <-> n = 1).
Proof. exact poisson_gamma_predictive_iff. Qed.

Example C23_case_iff :
  0 < Gamma_alpha (mkGamma 1 1) /\ 0 < 2 /\ 2 <> 1.
Proof. simpl; lra. Qed.

Print Assumptions C23_poisson_gamma_predictive_units_iff.

(** C23, the true marginal for n units. *)
Theorem C23_poisson_gamma_true_marginal_partial :
  forall (a b n : R) (k : nat),
  0 < a -> 0 < b -> 0 < n ->
  marginal Fpos0 Finf (pdf (Gamma_dist (mkGamma a b))) (fun lam => pmf (S_poisson (n * lam)) (Z.of_nat k))
    (pmf (S_nbinom a (b / (n + b))) (Z.of_nat k)).
Proof. exact poisson_gamma_marginal. Qed.

Example C23_case_truth :
  marginal Fpos0 Finf (pdf (Gamma_dist (mkGamma 1 1))) (fun lam => pmf (S_poisson (2 * lam)) 5) (pmf (S_nbinom 1 (1 / (2 + 1))) 5).
Proof. apply (C23_poisson_gamma_true_marginal_partial 1 1 2 5); lra. Qed.

Print Assumptions C23_poisson_gamma_true_marginal_partial.

(** C23, what the code computes for n: the sum of n draws with independent rates. *)
Theorem C23_poisson_gamma_predictive_independent_rates_partial :
  forall (d : Gamma R) (n k : nat),
  pmf (NegativeBinomial_dist (poisson_gamma_predictive d (INR n))) (Z.of_nat k) =
  iidN (fun i => pmf (NegativeBinomial_dist (poisson_gamma_predictive d 1)) (Z.of_nat i)) n k.
Proof. exact poisson_gamma_predictive_sum. Qed.

Print Assumptions C23_poisson_gamma_predictive_independent_rates_partial.

(** C24 *)
Theorem C24_gamma_known_shape_predictive :
  forall (d : Gamma R) (alpha x : R),
  0 < Gamma_alpha d -> 0 < Gamma_beta d -> 0 < alpha -> 0 < x ->
  marginal Fpos0 Finf (pdf (Gamma_dist d)) (fun rate => pdf (Gamma_dist (mkGamma alpha rate)) x)
    (pdf (CompoundGamma_dist (gamma_known_shape_predictive d alpha)) x).
Proof. exact gamma_known_shape_predictive_marginal. Qed.

Example C24_case :
  marginal Fpos0 Finf (pdf (Gamma_dist (mkGamma 2 3))) (fun rate => pdf (Gamma_dist (mkGamma 5 rate)) 4)
    (pdf (CompoundGamma_dist (mkCompoundGamma 5 2 3)) 4).
Proof. apply (C24_gamma_known_shape_predictive (mkGamma 2 3) 5 4); simpl; lra. Qed.

Print Assumptions C24_gamma_known_shape_predictive.

(** C25 *)
Theorem C25_normal_known_variance_predictive :
  forall (d : Normal R) (var x : R),
  0 < Normal_sigma d -> 0 < var ->
  marginal Fminf Finf (pdf (Normal_dist d)) (fun m => pdf (Normal_dist (mkNormal m (sqrt var))) x)
    (pdf (Normal_dist (normal_known_variance_predictive var d)) x).
Proof. exact normal_known_variance_predictive_marginal. Qed.

Example C25_case :
  marginal Fminf Finf (pdf (S_norm 1 3)) (fun m => pdf (S_norm m (sqrt 16)) 7) (pdf (S_norm 1 5) 7).
Proof. replace (S_norm 1 5) with (Normal_dist (normal_known_variance_predictive 16 (mkNormal 1 3))).
  apply (C25_normal_known_variance_predictive (mkNormal 1 3) 16 7); simpl; lra.
  unfold Normal_dist, normal_known_variance_predictive. simpl. f_equal. replace (16 + 3 * (3 * 1)) with (5 * 5) by ring. apply sqrt_square. lra. Qed.

Print Assumptions C25_normal_known_variance_predictive.

(** C25: the precision variant. *)
Theorem C25_normal_known_precision_predictive :
  forall (d : Normal R) (precision x : R),
  0 < Normal_sigma d -> 0 < precision ->
  marginal Fminf Finf (pdf (Normal_dist d)) (fun m => pdf (Normal_dist (mkNormal m (/ sqrt precision))) x)
    (pdf (Normal_dist (normal_known_precision_predictive precision d)) x).
Proof. exact normal_known_precision_predictive_marginal. Qed.

Example C25_case_precision :
  0 < Normal_sigma (mkNormal 1 3) /\ Normal_mu (normal_known_precision_predictive (/ 16) (mkNormal 1 3)) = 1.
Proof. simpl; lra. Qed.

Print Assumptions C25_normal_known_precision_predictive.

(** C26: both prior families. *)
Theorem C26_normal_known_mean_predictive :
  forall (d : VariancePrior R) (mu x : R),
  variance_ok d ->
  marginal Fpos0 Finf (pdf (variance_dist d)) (fun v => pdf (Normal_dist (mkNormal mu (sqrt v))) x)
    (pdf (StudentT_dist (normal_known_mean_predictive mu d)) x).
Proof. exact normal_known_mean_predictive_marginal. Qed.

Example C26_case :
  marginal Fpos0 Finf (pdf (S_invgamma_scale 2 8)) (fun v => pdf (S_norm 1 (sqrt v)) 3) (pdf (S_t 4 1 2) 3).
Proof. replace (S_t 4 1 2) with (StudentT_dist (normal_known_mean_predictive 1 (VIG (mkInverseGamma 2 8)))).
  apply (C26_normal_known_mean_predictive (VIG (mkInverseGamma 2 8)) 1 3); simpl; lra.
  unfold StudentT_dist, normal_known_mean_predictive. simpl. replace (8 / 2) with (2 * 2) by lra. rewrite sqrt_square by lra. reflexivity. Qed.

Print Assumptions C26_normal_known_mean_predictive.

(** C27: both prior families. *)
Theorem C27_normal_predictive :
  forall {M} (d : NormalPrior R M) (x : R),
  normal_prior_ok d ->
  exists t, normal_predictive d = Ok t /\
  marginal2 Fminf Finf Fpos0 Finf (fun v => 0 < v) (normal_prior_pdf d)
    (fun m v => pdf (Normal_dist (mkNormal m (normal_obs_sd d v))) x)
    (pdf (StudentT_dist t) x).
Proof. exact @normal_predictive_marginal. Qed.

Example C27_case :
  normal_prior_ok (M := unit) (PNG (mkNormalGamma 0 1 1 1)) /\
  normal_predictive (PNG (M := unit) (mkNormalGamma 0 1 1 2)) = Ok (mkStudentT 0 2 2).
Proof. split. simpl; lra. unfold normal_predictive. simpl. do 2 f_equal. 2: lra. replace (2 * (1 + 1) / (1 * 1)) with (2 * 2) by lra. apply sqrt_square. lra. Qed.

Print Assumptions C27_normal_predictive.

(** C27: the two families with the same numbers have the same predictive. *)
Theorem C27_normal_predictive_families :
  forall {M : Type} mu nu a b,
  normal_predictive (PNIG (M := M) (mkNormalInverseGamma mu a b None (Some nu))) =
  normal_predictive (PNG (M := M) (mkNormalGamma mu nu a b)).
Proof. exact @normal_predictive_families. Qed.

Print Assumptions C27_normal_predictive_families.

