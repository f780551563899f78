(** Conversions and documented densities: C37, C41. *)

From Coq Require Import Reals Lra Psatz ZArith Lia.
From Coquelicot Require Import Coquelicot.
From Verif Require Import Model.Num Model.Py Model.Dists Model.ScipyDist Model.Models Spec.Special Spec.Densities Spec.Bayes Spec.Joint.
From Verif Require Import Analysis.Improper Analysis.RealAux Analysis.GammaBeta Analysis.GammaFacts Proofs.Pdfs Proofs.Conj Proofs.Predictive Proofs.Joint Proofs.Seq Proofs.Refute.
Open Scope R_scope.

Lemma sics_density_to (d : ScaledInverseChiSquared R) x :
  pdf (InverseGamma_dist (ScaledInverseChiSquared_to_inverse_gamma d)) x = pdf (ScaledInverseChiSquared_dist d) x.
Proof. reflexivity. Qed.

Lemma sics_density_from (d : InverseGamma R) x : InverseGamma_alpha d <> 0 ->
  pdf (ScaledInverseChiSquared_dist (ScaledInverseChiSquared_from_inverse_gamma d)) x = pdf (InverseGamma_dist d) x.
Proof. intros H. rewrite <- sics_density_to. now rewrite sics_roundtrip1. Qed.

Lemma sics_density (d : ScaledInverseChiSquared R) v : 0 < ScaledInverseChiSquared_nu d -> 0 < ScaledInverseChiSquared_sigma2 d -> 0 < v ->
  let nu := ScaledInverseChiSquared_nu d in let t2 := ScaledInverseChiSquared_sigma2 d in
  pdf (ScaledInverseChiSquared_dist d) v =
  Rpower (t2 * nu / 2) (nu / 2) / Gamma_fun (nu / 2) * exp (- (nu * t2 / (2 * v))) / Rpower v (1 + nu / 2).
Proof.
  destruct d as [nu t2]. simpl ScaledInverseChiSquared_nu. simpl ScaledInverseChiSquared_sigma2. intros Hn Ht Hv. cbv zeta.
  cbv [ScaledInverseChiSquared_dist ScaledInverseChiSquared_nu ScaledInverseChiSquared_sigma2 nmul ndiv nlit NumR].
  assert (0 < nu * t2) by nra. rewrite invgamma_pdf by (try apply Rdiv_lt_0_compat; lra).
  replace (- (nu / 2) - 1) with (- (1 + nu / 2)) by ring. rewrite Rpower_opp_base.
  replace (nu * t2 / 2 / v) with (nu * t2 / (2 * v)) by (field; lra).
  replace (nu * t2 / 2) with (t2 * nu / 2) by field. unfold Rdiv. ring.
Qed.

Lemma beta_density (d : Beta R) x : 0 < x < 1 ->
  pdf (Beta_dist d) x = Rpower x (Beta_alpha d - 1) * Rpower (1 - x) (Beta_beta d - 1) / Beta_fun (Beta_alpha d) (Beta_beta d).
Proof. intros Hx. unfold Beta_dist. rewrite beta_pdf by auto. unfold Rdiv. ring. Qed.

Lemma gamma_density (d : Gamma R) x : 0 < Gamma_beta d -> 0 < x ->
  pdf (Gamma_dist d) x =
  Rpower (Gamma_beta d) (Gamma_alpha d) / Gamma_fun (Gamma_alpha d) * Rpower x (Gamma_alpha d - 1) * exp (- (Gamma_beta d * x)).
Proof. intros Hb Hx. unfold Gamma_dist. simpl ndiv. rewrite gamma_pdf by auto. ring. Qed.

Lemma invgamma_density (d : InverseGamma R) x : 0 < InverseGamma_beta d -> 0 < x ->
  pdf (InverseGamma_dist d) x =
  Rpower (InverseGamma_beta d) (InverseGamma_alpha d) / Gamma_fun (InverseGamma_alpha d) * Rpower (/ x) (InverseGamma_alpha d + 1) * exp (- (InverseGamma_beta d / x)).
Proof.
  intros Hb Hx. unfold InverseGamma_dist. rewrite invgamma_pdf by auto. rewrite Rpower_inv_base by auto.
  replace (- InverseGamma_alpha d - 1) with (- (InverseGamma_alpha d + 1)) by ring. rewrite Rpower_opp_base. ring.
Qed.

Lemma normal_density (d : Normal R) x : 0 < Normal_sigma d ->
  pdf (Normal_dist d) x = / (Normal_sigma d * sqrt (2 * PI)) * exp (- (x - Normal_mu d) ^ 2 / (2 * (Normal_sigma d) ^ 2)).
Proof. intros. now apply norm_pdf. Qed.

Lemma pareto_density (d : Pareto R) x : 0 < Pareto_x_m d ->
  pdf (Pareto_dist d) x =
  if Rle_dec (Pareto_x_m d) x then Pareto_alpha d * Rpower (Pareto_x_m d) (Pareto_alpha d) / Rpower x (Pareto_alpha d + 1) else 0.
Proof. intros H. destruct Rle_dec. now apply pareto_pdf. apply pareto_pdf_out; lra. Qed.

Lemma student_t_density (d : StudentT R) x : 0 < StudentT_nu d -> 0 < StudentT_sigma d ->
  let nu := StudentT_nu d in
  pdf (StudentT_dist d) x =
  Gamma_fun ((nu + 1) / 2) / (Gamma_fun (nu / 2) * sqrt (PI * nu) * StudentT_sigma d)
  * Rpower (1 + ((x - StudentT_mu d) / StudentT_sigma d) ^ 2 / nu) (- ((nu + 1) / 2)).
Proof.
  intros Hn Hs nu. unfold StudentT_dist, pdf, locscale, std_t. fold nu.
  assert (0 < sqrt (PI * nu)). { apply sqrt_lt_R0. apply Rmult_lt_0_compat; auto. apply PI_RGT_0. }
  pose proof (Gamma_fun_pos (nu / 2)) as HG. field. repeat split; try lra. unfold nu in *. lra.
Qed.

Lemma lomax_density (d : Lomax R) x : 0 < Lomax_lam d -> 0 <= x ->
  pdf (Lomax_dist d) x = Lomax_alpha d / Lomax_lam d * Rpower (1 + x / Lomax_lam d) (- (Lomax_alpha d + 1)).
Proof.
  intros Hl Hx. destruct d as [c s]. cbv [Lomax_dist Lomax_alpha Lomax_lam] in *. rewrite lomax_pdf by auto.
  replace (1 + x / s) with ((s + x) / s) by (field; lra). rewrite Rpower_opp_base, Rpower_div_base by lra.
  rewrite (Rpower_succ s c) by auto. pose proof (Rpower_pos s c). pose proof (Rpower_pos (s + x) (c + 1)). field. lra.
Qed.

Lemma weibull_density (d : Weibull R) x : 0 < Weibull_beta d -> 0 < Weibull_theta d -> 0 < x ->
  pdf (Weibull_dist d) x =
  Weibull_beta d * Rpower x (Weibull_beta d - 1) / Weibull_theta d * exp (- (Rpower x (Weibull_beta d) / Weibull_theta d)).
Proof.
  destruct d as [b t]. cbv [Weibull_dist Weibull_beta Weibull_theta ndiv nlit npow NumR]. intros Hb Ht Hx.
  rewrite weibull_pdf by (auto; apply Rpower_pos). rewrite Rpower_mult. replace (1 / b * b) with 1 by (field; lra).
  now rewrite Rpower_1.
Qed.

Lemma von_mises_density (d : VonMises R) x :
  pdf (VonMises_dist d) x = exp (VonMises_kappa d * cos (x - VonMises_mu d)) / (2 * PI * Bessel_i0 (VonMises_kappa d)).
Proof. destruct d as [m k]. apply Proportional.vonmises_pdf. Qed.

Lemma binomial_mass (n k : nat) p : (k <= n)%nat ->
  pmf (Binomial_dist (mkBinomial (INR n) p)) (Z.of_nat k) = Binomial.C n k * p ^ k * (1 - p) ^ (n - k).
Proof. intros H. unfold Binomial_dist. simpl Binomial_n. rewrite binom_pmf, choose_C by auto. reflexivity. Qed.

Lemma negative_binomial_mass (d : NegativeBinomial R) k : 0 < NegativeBinomial_n d ->
  pmf (NegativeBinomial_dist d) (Z.of_nat k) =
  Gamma_fun (NegativeBinomial_n d + INR k) / (INR (fact k) * Gamma_fun (NegativeBinomial_n d))
  * Rpower (NegativeBinomial_p d) (NegativeBinomial_n d) * (1 - NegativeBinomial_p d) ^ k.
Proof.
  intros H. unfold NegativeBinomial_dist. rewrite nbinom_pmf, Gamma_fun_rising by auto.
  pose proof (Gamma_fun_pos _ H). pose proof (fact_pos k). field. lra.
Qed.

Lemma poisson_mass (d : Poisson R) k : pmf (Poisson_dist d) (Z.of_nat k) = Poisson_lam d ^ k * exp (- Poisson_lam d) / INR (fact k).
Proof. unfold Poisson_dist. rewrite poisson_pmf. unfold Rdiv. ring. Qed.

(** number of trials up to the first success (one_start) or of failures before it *)
Lemma geometric_mass p (one_start : bool) (failures : nat) :
  pmf (Geometric_dist (mkGeometric p one_start)) (Z.of_nat (failures + if one_start then 1 else 0)) = (1 - p) ^ failures * p.
Proof.
  pose proof (geom_pmf p) as H.
  destruct one_start; cbv [Geometric_dist Geometric_one_start Geometric_p nlit NumR].
  - specialize (H 0%Z (failures + 1)%nat ltac:(lia)). rewrite Z.add_0_r in H. rewrite H. do 2 f_equal. lia.
  - specialize (H (-1)%Z (failures + 1)%nat ltac:(lia)). replace (Z.of_nat (failures + 1) + -1)%Z with (Z.of_nat (failures + 0)) in H by lia.
    rewrite H. do 2 f_equal. lia.
Qed.

Lemma hypergeometric_mass (N k n x : nat) : (x <= k)%nat -> (x <= n)%nat -> (k <= N)%nat -> (n - x <= N - k)%nat ->
  pmf (Hypergeometric_dist (mkHypergeometric (INR N) (INR k) (INR n))) (Z.of_nat x) =
  Binomial.C k x * Binomial.C (N - k) (n - x) / Binomial.C N n.
Proof.
  intros H1 H2 H3 H4. unfold Hypergeometric_dist. simpl Hypergeometric_N. simpl Hypergeometric_k. simpl Hypergeometric_n.
  rewrite hypergeom_pmf by auto. rewrite !choose_C by lia. reflexivity.
Qed.

(** The three that are wrong, in general position. *)
Lemma Exponential_dist_is_scale (d : Exponential R) x : 0 < Exponential_lam d -> 0 <= x ->
  pdf (Exponential_dist d) x = / Exponential_lam d * exp (- (x / Exponential_lam d)).
Proof. intros. unfold Exponential_dist. rewrite expon_pdf by auto. unfold Rdiv. ring. Qed.

Lemma Uniform_dist_support (d : Uniform R) x : 0 < Uniform_high d ->
  pdf (Uniform_dist d) x = if Rle_dec (Uniform_low d) x then if Rle_dec x (Uniform_low d + Uniform_high d) then / Uniform_high d else 0 else 0.
Proof.
  intros H. unfold Uniform_dist. destruct Rle_dec; [destruct Rle_dec|].
  - apply uniform_pdf; auto. 
  - apply uniform_pdf_out; auto. lra.
  - apply uniform_pdf_out; auto. lra.
Qed.
