(** C37-C41: conversions, constructors, arithmetic and densities of the distribution classes. *)

From Coq Require Import Reals Lra Psatz ZArith Lia Permutation.
From Coquelicot Require Import Coquelicot.
From Verif Require Import Model.Num Model.Py Model.Dists Model.ScipyDist Model.Models.
From Verif Require Import Spec.Special Spec.Densities Spec.Bayes Spec.Joint Spec.Moments Spec.Convolution.
From Verif Require Import Analysis.GammaFacts Proofs.Conj Proofs.Seq Proofs.Moments Proofs.Arith Proofs.Convert Proofs.Predictive Proofs.Refute Proofs.Sharp Proofs.Construct.
From Coq Require Import List.
Import ListNotations.
Open Scope R_scope.

Ltac side := simpl; repeat constructor; simpl; try lra; try lia.

(** C37 *)
Theorem C37_roundtrip_inverse_gamma :
  forall (d : InverseGamma R),
  InverseGamma_alpha d <> 0 ->
  ScaledInverseChiSquared_to_inverse_gamma (ScaledInverseChiSquared_from_inverse_gamma d) = d.
Proof. exact sics_roundtrip1. Qed.

Example C37_case :
  ScaledInverseChiSquared_from_inverse_gamma (mkInverseGamma 2 6) = mkScaledInverseChiSquared 4 3.
Proof. unfold ScaledInverseChiSquared_from_inverse_gamma; simpl; f_equal; field. Qed.

Print Assumptions C37_roundtrip_inverse_gamma.

(** C37 *)
Theorem C37_roundtrip_scaled :
  forall (d : ScaledInverseChiSquared R),
  ScaledInverseChiSquared_nu d <> 0 ->
  ScaledInverseChiSquared_from_inverse_gamma (ScaledInverseChiSquared_to_inverse_gamma d) = d.
Proof. exact sics_roundtrip2. Qed.

Example C37_case_scaled :
  ScaledInverseChiSquared_to_inverse_gamma (mkScaledInverseChiSquared 4 3) = mkInverseGamma 2 6.
Proof. unfold ScaledInverseChiSquared_to_inverse_gamma; simpl; f_equal; field. Qed.

Print Assumptions C37_roundtrip_scaled.

(** C37: the density is preserved. *)
Theorem C37_density_to :
  forall (d : ScaledInverseChiSquared R) x,
  pdf (InverseGamma_dist (ScaledInverseChiSquared_to_inverse_gamma d)) x = pdf (ScaledInverseChiSquared_dist d) x.
Proof. exact sics_density_to. Qed.

Print Assumptions C37_density_to.

(** C37: the density is preserved. *)
Theorem C37_density_from :
  forall (d : InverseGamma R) x,
  InverseGamma_alpha d <> 0 ->
  pdf (ScaledInverseChiSquared_dist (ScaledInverseChiSquared_from_inverse_gamma d)) x = pdf (InverseGamma_dist d) x.
Proof. exact sics_density_from. Qed.

Print Assumptions C37_density_from.

(** C38 *)
Theorem C38_Beta_from_mean :
  forall mean alpha,
  0 < mean < 1 -> 0 < alpha ->
  is_mean Fpos0 Fone (pdf (Beta_dist (Beta_from_mean mean alpha))) mean.
Proof. exact Beta_from_mean_mean. Qed.

Example C38_case :
  Beta_from_mean (/ 4) 2 = mkBeta 2 6.
Proof. unfold Beta_from_mean; simpl; f_equal; field. Qed.

Print Assumptions C38_Beta_from_mean.

(** C38 *)
Theorem C38_Normal_from_mean_and_variance :
  forall mean variance,
  0 < variance ->
  is_mean Fminf Finf (pdf (Normal_dist (Normal_from_mean_and_variance mean variance))) mean /\
  is_variance Fminf Finf (pdf (Normal_dist (Normal_from_mean_and_variance mean variance))) variance.
Proof. exact Normal_from_mean_and_variance_moments. Qed.

Example C38_case_variance :
  Normal_from_mean_and_variance 1 (3 * 3) = mkNormal 1 3.
Proof. unfold Normal_from_mean_and_variance; simpl; f_equal; apply sqrt_square; lra. Qed.

Print Assumptions C38_Normal_from_mean_and_variance.

(** C38 *)
Theorem C38_Normal_from_mean_and_precision :
  forall mean precision,
  0 < precision ->
  is_mean Fminf Finf (pdf (Normal_dist (Normal_from_mean_and_precision mean precision))) mean /\
  is_variance Fminf Finf (pdf (Normal_dist (Normal_from_mean_and_precision mean precision))) (/ precision).
Proof. exact Normal_from_mean_and_precision_moments. Qed.

Example C38_case_precision :
  Normal_from_mean_and_precision 1 (4 * 4) = mkNormal 1 (/ 4).
Proof. unfold Normal_from_mean_and_precision; simpl; rewrite sqrt_square by lra; reflexivity. Qed.

Print Assumptions C38_Normal_from_mean_and_precision.

(** C38 *)
Theorem C38_Beta_from_successes_and_failures :
  forall s f,
  Beta_from_successes_and_failures s f = binomial_beta (s + f) s Beta_uninformative.
Proof. exact Beta_from_successes_and_failures_update. Qed.

Print Assumptions C38_Beta_from_successes_and_failures.

(** C38 *)
Theorem C38_Gamma_from_occurrences :
  forall s n,
  poisson_gamma s n (mkGamma 0 0) = Gamma_from_occurrences_in_intervals s n.
Proof. exact Gamma_from_occurrences_update. Qed.

Print Assumptions C38_Gamma_from_occurrences.

(** C38: the limit of updating ever weaker proper priors. *)
Theorem C38_Gamma_from_occurrences_limit :
  forall s n,
  filterlim (fun e => Gamma_alpha (poisson_gamma s n (mkGamma e e))) Fpos0 (locally (Gamma_alpha (Gamma_from_occurrences_in_intervals s n))) /\
  filterlim (fun e => Gamma_beta (poisson_gamma s n (mkGamma e e))) Fpos0 (locally (Gamma_beta (Gamma_from_occurrences_in_intervals s n))).
Proof. exact Gamma_from_occurrences_limit. Qed.

Print Assumptions C38_Gamma_from_occurrences_limit.

(** C38: Beta.uninformative is uniform. *)
Theorem C38_Beta_uninformative :
  forall x, 0 < x < 1 -> pdf (Beta_dist Beta_uninformative) x = 1.
Proof. exact Beta_uninformative_uniform. Qed.

Example C38_case_uniform : 0 < / 3 < 1.
Proof. lra. Qed.

Print Assumptions C38_Beta_uninformative.

(** C38 *)
Theorem C38_Normal_uninformative :
  forall sigma, 0 < sigma ->
  is_mean Fminf Finf (pdf (Normal_dist (Normal_uninformative sigma))) 0 /\
  is_variance Fminf Finf (pdf (Normal_dist (Normal_uninformative sigma))) (sigma ^ 2).
Proof. exact Normal_uninformative_moments. Qed.

Example C38_case_uninformative : Normal_uninformative 2 = mkNormal 0 2.
Proof. reflexivity. Qed.

Print Assumptions C38_Normal_uninformative.

(** C38: NormalInverseGamma.from_inverse_gamma is defined exactly if the
    constructor is (C53); the distribution of the variance is the one given, and
    the other parameters are those given. *)
Theorem C38_NormalInverseGamma_from_inverse_gamma :
  forall (V M : Type) (mu : V) (ig : InverseGamma R) (delta_inverse : option M) (nu : option R),
  ((exists d, NormalInverseGamma_from_inverse_gamma mu ig delta_inverse nu = Ok d) <->
   ((delta_inverse <> None /\ nu = None) \/ (delta_inverse = None /\ nu <> None))) /\
  forall d, NormalInverseGamma_from_inverse_gamma mu ig delta_inverse nu = Ok d ->
   NormalInverseGamma_inverse_gamma d = ig /\ NormalInverseGamma_alpha d = InverseGamma_alpha ig /\
   NormalInverseGamma_beta d = InverseGamma_beta ig /\ NormalInverseGamma_mu d = mu /\
   NormalInverseGamma_delta_inverse d = delta_inverse /\ NormalInverseGamma_nu d = nu.
Proof. exact @nig_from_ig. Qed.

Example C38_case_nig : exists d, NormalInverseGamma_from_inverse_gamma (M := unit) 0 (mkInverseGamma 2 3) None (Some 1) = Ok d.
Proof. eexists. reflexivity. Qed.

Print Assumptions C38_NormalInverseGamma_from_inverse_gamma.

(** C39 *)
Theorem C39_Poisson_add :
  forall (d1 d2 : Poisson R) k,
  pmf (Poisson_dist (Poisson_add d1 d2)) (Z.of_nat k) =
  convN (fun i => pmf (Poisson_dist d1) (Z.of_nat i)) (fun i => pmf (Poisson_dist d2) (Z.of_nat i)) k.
Proof. exact Poisson_add_conv. Qed.

Print Assumptions C39_Poisson_add.

(** C39 *)
Theorem C39_Poisson_mul :
  forall (d : Poisson R) (n k : nat),
  pmf (Poisson_dist (Poisson_mul d (INR n))) (Z.of_nat k) = iidN (fun i => pmf (Poisson_dist d) (Z.of_nat i)) n k.
Proof. exact Poisson_mul_iid. Qed.

Print Assumptions C39_Poisson_mul.

(** C39 *)
Theorem C39_NegativeBinomial_mul :
  forall (d : NegativeBinomial R) (n k : nat),
  pmf (NegativeBinomial_dist (NegativeBinomial_mul d (INR n))) (Z.of_nat k) =
  iidN (fun i => pmf (NegativeBinomial_dist d) (Z.of_nat i)) n k.
Proof. exact NegativeBinomial_mul_iid. Qed.

Print Assumptions C39_NegativeBinomial_mul.

Example C39_case :
  pmf (Poisson_dist (Poisson_mul (mkPoisson 2) (INR 3))) 4 = pmf (Poisson_dist (mkPoisson 6)) 4.
Proof. do 2 f_equal. unfold Poisson_mul. simpl. f_equal. ring. Qed.

(** C39 *)
Theorem C39_Poisson_add_comm :
  forall (d1 d2 : Poisson R),
  Poisson_add d1 d2 = Poisson_add d2 d1.
Proof. exact Poisson_add_comm. Qed.

Print Assumptions C39_Poisson_add_comm.

(** C39 *)
Theorem C39_Poisson_add_assoc :
  forall (d1 d2 d3 : Poisson R),
  Poisson_add d1 (Poisson_add d2 d3) = Poisson_add (Poisson_add d1 d2) d3.
Proof. exact Poisson_add_assoc. Qed.

Print Assumptions C39_Poisson_add_assoc.

(** C40: k * Gamma *)
Theorem C40_Gamma_mul :
  forall (d : Gamma R) (n : nat),
  0 < Gamma_alpha d -> 0 < Gamma_beta d ->
  iid_density conv_pos (fun x => 0 < x) (pdf (Gamma_dist d)) n (pdf (Gamma_dist (Gamma_mul d (INR (S n))))).
Proof. exact Gamma_mul_iid. Qed.

Example C40_case :
  Gamma_mul (mkGamma 2 5) (INR 3) = mkGamma 6 5.
Proof. unfold Gamma_mul; simpl; f_equal; ring. Qed.

Print Assumptions C40_Gamma_mul.

(** C40: k * Exponential, for the distributions the library's dist attributes describe (scale lam, see C41).
    The product is the Gamma with rate 1 / lam. *)
Theorem C40_Exponential_mul :
  forall (d : Exponential R) (n : nat),
  0 < Exponential_lam d ->
  iid_density conv_pos (fun x => 0 < x) (pdf (Exponential_dist d)) n (pdf (Gamma_dist (Exponential_mul d (INR (S n))))).
Proof. exact Exponential_mul_iid. Qed.

Example C40_case_exponential :
  Exponential_mul (mkExponential 2) (INR 3) = mkGamma 3 (1 / 2).
Proof. unfold Exponential_mul; simpl; f_equal; field. Qed.

Print Assumptions C40_Exponential_mul.

(** C40: k * Normal *)
Theorem C40_Normal_mul :
  forall (d : Normal R) (n : nat),
  0 < Normal_sigma d ->
  iid_density conv_line (fun _ => True) (pdf (Normal_dist d)) n (pdf (Normal_dist (Normal_mul d (INR (S n))))).
Proof. exact Normal_mul_iid. Qed.

Example C40_case_normal :
  Normal_mul (mkNormal 2 5) (INR 4) = mkNormal 8 10.
Proof. replace (INR 4) with (2 * 2) by (simpl; ring). unfold Normal_mul. simpl. replace (5 * (5 * 1) * (2 * 2)) with (10 * 10) by ring. rewrite sqrt_square by lra. f_equal; ring. Qed.

Print Assumptions C40_Normal_mul.

(** C40: (d * a) * b = d * (a * b) *)
Theorem C40_Gamma_mul_mul :
  forall (d : Gamma R) (x y : R),
  Gamma_mul (Gamma_mul d x) y = Gamma_mul d (x * y).
Proof. exact Gamma_mul_mul. Qed.

Print Assumptions C40_Gamma_mul_mul.

(** C40: (d * a) * b = d * (a * b) *)
Theorem C40_Poisson_mul_mul :
  forall (d : Poisson R) (x y : R),
  Poisson_mul (Poisson_mul d x) y = Poisson_mul d (x * y).
Proof. exact Poisson_mul_mul. Qed.

Print Assumptions C40_Poisson_mul_mul.

(** C40: (d * a) * b = d * (a * b) *)
Theorem C40_NegativeBinomial_mul_mul :
  forall (d : NegativeBinomial R) (x y : R),
  NegativeBinomial_mul (NegativeBinomial_mul d x) y = NegativeBinomial_mul d (x * y).
Proof. exact NegativeBinomial_mul_mul. Qed.

Print Assumptions C40_NegativeBinomial_mul_mul.

(** C40: (d * a) * b = d * (a * b) *)
Theorem C40_Normal_mul_mul :
  forall (d : Normal R) (x y : R),
  0 <= x -> 0 <= y -> Normal_mul (Normal_mul d x) y = Normal_mul d (x * y).
Proof. exact Normal_mul_mul. Qed.

Print Assumptions C40_Normal_mul_mul.

(** C40: (d * a) * b = d * (a * b) *)
Theorem C40_Exponential_mul_mul :
  forall (d : Exponential R) (x y : R),
  Gamma_mul (Exponential_mul d x) y = Exponential_mul d (x * y).
Proof. exact Exponential_mul_mul. Qed.

Print Assumptions C40_Exponential_mul_mul.

(** C41: Beta *)
Theorem C41_Beta_dist :
  forall (d : Beta R) x,
  0 < x < 1 ->
  pdf (Beta_dist d) x = Rpower x (Beta_alpha d - 1) * Rpower (1 - x) (Beta_beta d - 1) / Beta_fun (Beta_alpha d) (Beta_beta d).
Proof. exact beta_density. Qed.

Example C41_case_beta : pdf (Beta_dist (mkBeta 2 1)) (/ 4) = / 2.
Proof.
  rewrite C41_Beta_dist by lra. cbn [Beta_alpha Beta_beta]. replace 2 with (1 + 1) by ring. rewrite Beta_fun_succ_l, Beta_fun_Gamma by lra.
  replace (1 + 1) with (0 + 1 + 1) by ring. rewrite (Gamma_fun_succ (0 + 1)), (Rplus_0_l 1), Gamma_fun_1 by lra.
  replace (1 + 1 - 1) with 1 by ring. replace (1 - 1) with 0 by ring. rewrite Rpower_1, Rpower_O by lra. field.
Qed.

Print Assumptions C41_Beta_dist.

(** C41: Gamma *)
Theorem C41_Gamma_dist :
  forall (d : Gamma R) x,
  0 < Gamma_beta d -> 0 < x ->
  pdf (Gamma_dist d) x =
  Rpower (Gamma_beta d) (Gamma_alpha d) / Gamma_fun (Gamma_alpha d) * Rpower x (Gamma_alpha d - 1) * exp (- (Gamma_beta d * x)).
Proof. exact gamma_density. Qed.

Example C41_case_gamma_density : pdf (Gamma_dist (mkGamma 1 3)) 2 = 3 * exp (- (6)).
Proof.
  rewrite C41_Gamma_dist by (simpl; lra). cbn [Gamma_alpha Gamma_beta]. replace (1 - 1) with 0 by ring. rewrite Gamma_fun_1, Rpower_1, Rpower_O by lra.
  replace (3 * 2) with 6 by ring. field.
Qed.

Print Assumptions C41_Gamma_dist.

(** C41: InverseGamma *)
Theorem C41_InverseGamma_dist :
  forall (d : InverseGamma R) x,
  0 < InverseGamma_beta d -> 0 < x ->
  pdf (InverseGamma_dist d) x =
  Rpower (InverseGamma_beta d) (InverseGamma_alpha d) / Gamma_fun (InverseGamma_alpha d) * Rpower (/ x) (InverseGamma_alpha d + 1) * exp (- (InverseGamma_beta d / x)).
Proof. exact invgamma_density. Qed.

Example C41_case_inverse_gamma : pdf (InverseGamma_dist (mkInverseGamma 1 3)) 2 = 3 / 4 * exp (- (3 / 2)).
Proof.
  rewrite C41_InverseGamma_dist by (simpl; lra). cbn [InverseGamma_alpha InverseGamma_beta]. rewrite Gamma_fun_1, Rpower_1, Rpower_plus, Rpower_1 by lra. field.
Qed.

Print Assumptions C41_InverseGamma_dist.

(** C41: ScaledInverseChiSquared *)
Theorem C41_ScaledInverseChiSquared_dist :
  forall (d : ScaledInverseChiSquared R) v,
  0 < ScaledInverseChiSquared_nu d -> 0 < ScaledInverseChiSquared_sigma2 d -> 0 < v ->
  let nu := ScaledInverseChiSquared_nu d in let t2 := ScaledInverseChiSquared_sigma2 d in
  pdf (ScaledInverseChiSquared_dist d) v =
  Rpower (t2 * nu / 2) (nu / 2) / Gamma_fun (nu / 2) * exp (- (nu * t2 / (2 * v))) / Rpower v (1 + nu / 2).
Proof. exact sics_density. Qed.

Example C41_case_sics : pdf (ScaledInverseChiSquared_dist (mkScaledInverseChiSquared 2 3)) 1 = 3 * exp (- (3)).
Proof.
  rewrite C41_ScaledInverseChiSquared_dist by (simpl; lra). cbn [ScaledInverseChiSquared_nu ScaledInverseChiSquared_sigma2].
  replace (2 / 2) with 1 by field. rewrite Gamma_fun_1. replace (3 * 2 / 2) with 3 by field. rewrite Rpower_1 by lra.
  replace (2 * 3 / (2 * 1)) with 3 by field. unfold Rpower. rewrite ln_1, Rmult_0_r, exp_0. field.
Qed.

Print Assumptions C41_ScaledInverseChiSquared_dist.

(** C41: Normal *)
Theorem C41_Normal_dist :
  forall (d : Normal R) x,
  0 < Normal_sigma d ->
  pdf (Normal_dist d) x = / (Normal_sigma d * sqrt (2 * PI)) * exp (- (x - Normal_mu d) ^ 2 / (2 * (Normal_sigma d) ^ 2)).
Proof. exact normal_density. Qed.

Example C41_case_normal : pdf (Normal_dist (mkNormal 1 2)) 1 = / (2 * sqrt (2 * PI)).
Proof.
  rewrite C41_Normal_dist by (simpl; lra). cbn [Normal_mu Normal_sigma]. replace (- (1 - 1) ^ 2 / (2 * 2 ^ 2)) with 0 by field. rewrite exp_0. ring.
Qed.

Print Assumptions C41_Normal_dist.

(** C41: Pareto *)
Theorem C41_Pareto_dist :
  forall (d : Pareto R) x,
  0 < Pareto_x_m d ->
  pdf (Pareto_dist d) x =
  if Rle_dec (Pareto_x_m d) x then Pareto_alpha d * Rpower (Pareto_x_m d) (Pareto_alpha d) / Rpower x (Pareto_alpha d + 1) else 0.
Proof. exact pareto_density. Qed.

Example C41_case_pareto : pdf (Pareto_dist (mkPareto 1 2)) 2 = / 4 /\ pdf (Pareto_dist (mkPareto 1 2)) (/ 2) = 0.
Proof.
  split; rewrite C41_Pareto_dist by (simpl; lra); cbn [Pareto_x_m Pareto_alpha].
  - destruct (Rle_dec 1 2); [|lra]. replace (2 + 1) with (INR 3) by (simpl; ring). rewrite Rpower_pow by lra. unfold Rpower. rewrite ln_1, Rmult_0_r, exp_0. simpl. field.
  - destruct (Rle_dec 1 (/ 2)); [lra|reflexivity].
Qed.

Print Assumptions C41_Pareto_dist.

(** C41: StudentT *)
Theorem C41_StudentT_dist :
  forall (d : StudentT R) x,
  0 < StudentT_nu d -> 0 < StudentT_sigma d ->
  let nu := StudentT_nu d in
  pdf (StudentT_dist d) x =
  Gamma_fun ((nu + 1) / 2) / (Gamma_fun (nu / 2) * sqrt (PI * nu) * StudentT_sigma d)
  * Rpower (1 + ((x - StudentT_mu d) / StudentT_sigma d) ^ 2 / nu) (- ((nu + 1) / 2)).
Proof. exact student_t_density. Qed.

(** one degree of freedom: the Cauchy distribution *)
Example C41_case_student_t : pdf (StudentT_dist (mkStudentT 0 1 1)) 1 = / (2 * PI).
Proof.
  rewrite C41_StudentT_dist by (simpl; lra). cbn [StudentT_mu StudentT_sigma StudentT_nu]. pose proof PI_RGT_0.
  replace ((1 + 1) / 2) with 1 by field. replace (1 / 2) with (/ 2) by field. rewrite Gamma_fun_1, Gamma_half, (Rmult_1_r PI), sqrt_sqrt by lra.
  replace (1 + ((1 - 0) / 1) ^ 2 / 1) with 2 by field. rewrite Rpower_Ropp, Rpower_1 by lra. field. lra.
Qed.

Print Assumptions C41_StudentT_dist.

(** C41: Lomax *)
Theorem C41_Lomax_dist :
  forall (d : Lomax R) x,
  0 < Lomax_lam d -> 0 <= x ->
  pdf (Lomax_dist d) x = Lomax_alpha d / Lomax_lam d * Rpower (1 + x / Lomax_lam d) (- (Lomax_alpha d + 1)).
Proof. exact lomax_density. Qed.

Example C41_case_lomax : pdf (Lomax_dist (mkLomax 1 2)) 2 = / 8.
Proof.
  rewrite C41_Lomax_dist by (simpl; lra). cbn [Lomax_alpha Lomax_lam]. replace (1 + 2 / 2) with 2 by field. rewrite Rpower_Ropp.
  replace (1 + 1) with (INR 2) by (simpl; ring). rewrite Rpower_pow by lra. simpl. field.
Qed.

Print Assumptions C41_Lomax_dist.

(** C41: Weibull *)
Theorem C41_Weibull_dist :
  forall (d : Weibull R) x,
  0 < Weibull_beta d -> 0 < Weibull_theta d -> 0 < x ->
  pdf (Weibull_dist d) x =
  Weibull_beta d * Rpower x (Weibull_beta d - 1) / Weibull_theta d * exp (- (Rpower x (Weibull_beta d) / Weibull_theta d)).
Proof. exact weibull_density. Qed.

Example C41_case_weibull : pdf (Weibull_dist (mkWeibull 1 2)) 2 = / 2 * exp (- (1)).
Proof.
  rewrite C41_Weibull_dist by (simpl; lra). cbn [Weibull_beta Weibull_theta]. replace (1 - 1) with 0 by ring. rewrite Rpower_O, Rpower_1 by lra.
  replace (2 / 2) with 1 by field. field.
Qed.

Print Assumptions C41_Weibull_dist.

(** C41: VonMises *)
Theorem C41_VonMises_dist :
  forall (d : VonMises R) x,
  pdf (VonMises_dist d) x = exp (VonMises_kappa d * cos (x - VonMises_mu d)) / (2 * PI * Bessel_i0 (VonMises_kappa d)).
Proof. exact von_mises_density. Qed.

Print Assumptions C41_VonMises_dist.

(** C41: Binomial *)
Theorem C41_Binomial_dist :
  forall (n k : nat) p,
  (k <= n)%nat ->
  pmf (Binomial_dist (mkBinomial (INR n) p)) (Z.of_nat k) = Binomial.C n k * p ^ k * (1 - p) ^ (n - k).
Proof. exact binomial_mass. Qed.

Example C41_case_binomial : pmf (Binomial_dist (mkBinomial 3 (/ 2))) 2 = 3 / 8.
Proof.
  replace 3 with (INR 3) by (simpl; ring). change 2%Z with (Z.of_nat 2). rewrite C41_Binomial_dist by lia. unfold Binomial.C. simpl. field.
Qed.

Print Assumptions C41_Binomial_dist.

(** C41: NegativeBinomial *)
Theorem C41_NegativeBinomial_dist :
  forall (d : NegativeBinomial R) k,
  0 < NegativeBinomial_n d ->
  pmf (NegativeBinomial_dist d) (Z.of_nat k) =
  Gamma_fun (NegativeBinomial_n d + INR k) / (INR (fact k) * Gamma_fun (NegativeBinomial_n d))
  * Rpower (NegativeBinomial_p d) (NegativeBinomial_n d) * (1 - NegativeBinomial_p d) ^ k.
Proof. exact negative_binomial_mass. Qed.

Example C41_case_negative_binomial : pmf (NegativeBinomial_dist (mkNegativeBinomial 2 (/ 2))) 1 = / 4.
Proof.
  change 1%Z with (Z.of_nat 1). rewrite C41_NegativeBinomial_dist by (simpl; lra). cbn [NegativeBinomial_n NegativeBinomial_p INR].
  rewrite (Gamma_fun_succ 2) by lra. pose proof (GammaBeta.Gamma_fun_pos 2 ltac:(lra)). replace (Rpower (/ 2) 2) with (/ 4).
  - simpl. field. lra.
  - replace (Rpower (/ 2) 2) with (Rpower (/ 2) (INR 2)) by (f_equal; simpl; ring). rewrite Rpower_pow by lra. simpl. field.
Qed.

Print Assumptions C41_NegativeBinomial_dist.

(** C41: Poisson *)
Theorem C41_Poisson_dist :
  forall (d : Poisson R) k,
  pmf (Poisson_dist d) (Z.of_nat k) = Poisson_lam d ^ k * exp (- Poisson_lam d) / INR (fact k).
Proof. exact poisson_mass. Qed.

Example C41_case_poisson : pmf (Poisson_dist (mkPoisson 2)) 3 = 4 / 3 * exp (- (2)).
Proof. change 3%Z with (Z.of_nat 3). rewrite C41_Poisson_dist. simpl. field. Qed.

Print Assumptions C41_Poisson_dist.

(** C41: Geometric *)
Theorem C41_Geometric_dist :
  forall p (one_start : bool) (failures : nat),
  pmf (Geometric_dist (mkGeometric p one_start)) (Z.of_nat (failures + if one_start then 1 else 0)) = (1 - p) ^ failures * p.
Proof. exact geometric_mass. Qed.

Print Assumptions C41_Geometric_dist.

(** C41: Hypergeometric *)
Theorem C41_Hypergeometric_dist :
  forall (N k n x : nat),
  (x <= k)%nat -> (x <= n)%nat -> (k <= N)%nat -> (n - x <= N - k)%nat ->
  pmf (Hypergeometric_dist (mkHypergeometric (INR N) (INR k) (INR n))) (Z.of_nat x) =
  Binomial.C k x * Binomial.C (N - k) (n - x) / Binomial.C N n.
Proof. exact hypergeometric_mass. Qed.

Example C41_case_hypergeometric : pmf (Hypergeometric_dist (mkHypergeometric (INR 5) (INR 2) (INR 2))) 1 = 3 / 5.
Proof. change 1%Z with (Z.of_nat 1). rewrite C41_Hypergeometric_dist by lia. unfold Binomial.C. simpl. field. Qed.

Print Assumptions C41_Hypergeometric_dist.

Example C41_case_gamma :
  pdf (Gamma_dist (mkGamma 1 3)) 2 = 3 * exp (- (3 * 2)).
Proof. rewrite C41_Gamma_dist by (simpl; lra). cbn [Gamma_beta Gamma_alpha]. rewrite Gamma_fun_1, Rpower_1 by lra. replace (1 - 1) with 0 by ring. rewrite Rpower_O by lra. field. Qed.
Example C41_case_geometric :
  pmf (Geometric_dist (mkGeometric (/ 3) true)) 3 = 4 / 27 /\ pmf (Geometric_dist (mkGeometric (/ 3) false)) 2 = 4 / 27.
Proof. pose proof (C41_Geometric_dist (/ 3) true 2) as H1. pose proof (C41_Geometric_dist (/ 3) false 2) as H2.
  cbn [Nat.add Z.of_nat Pos.of_succ_nat Pos.succ] in H1, H2. rewrite H1, H2. simpl. lra. Qed.

(** C41 is false of Exponential: documented as rate lam. *)
Theorem C41_Exponential_refuted :
  exists (lam x : R), 0 < lam /\ 0 <= x /\ pdf (Exponential_dist (mkExponential lam)) x <> lam * exp (- (lam * x)).
Proof. exists 2, 0. split; [lra|split; [lra|]]. exact Exponential_dist_not_rate. Qed.

Print Assumptions C41_Exponential_refuted.

(** C41, sharp: Exponential. *)
Theorem C41_Exponential_iff :
  forall lam,
  0 < lam ->
  ((forall x, 0 <= x -> pdf (Exponential_dist (mkExponential lam)) x = lam * exp (- (lam * x))) <-> lam = 1).
Proof. exact Exponential_dist_rate_iff. Qed.

Print Assumptions C41_Exponential_iff.

(** C41, what holds: lam is the scale. *)
Theorem C41_Exponential_partial :
  forall (d : Exponential R) x,
  0 < Exponential_lam d -> 0 <= x ->
  pdf (Exponential_dist d) x = / Exponential_lam d * exp (- (x / Exponential_lam d)).
Proof. exact Exponential_dist_is_scale. Qed.

(** a rate of 2 is read as a scale of 2 *)
Example C41_case_exponential : pdf (Exponential_dist (mkExponential 2)) 2 = / 2 * exp (- (1)).
Proof. rewrite C41_Exponential_partial by (simpl; lra). cbn [Exponential_lam]. replace (2 / 2) with 1 by field. reflexivity. Qed.

Print Assumptions C41_Exponential_partial.

(** C41 is false of Uniform: mass outside [low, high]. *)
Theorem C41_Uniform_refuted :
  exists (low high x : R), low < high /\ high < x /\ 0 < pdf (Uniform_dist (mkUniform low high)) x.
Proof. exists 1, 2, (5 / 2). split; [lra|split; [lra|]]. rewrite Uniform_dist_not_uniform. lra. Qed.

Print Assumptions C41_Uniform_refuted.

(** C41, sharp: Uniform. *)
Theorem C41_Uniform_iff :
  forall low high,
  low < high -> 0 < high ->
  ((forall x, pdf (Uniform_dist (mkUniform low high)) x = if Rle_dec low x then if Rle_dec x high then / (high - low) else 0 else 0)
   <-> low = 0).
Proof. exact Uniform_dist_iff. Qed.

Print Assumptions C41_Uniform_iff.

(** C41, what holds: the support is [low, low + high]. *)
Theorem C41_Uniform_partial :
  forall (d : Uniform R) x,
  0 < Uniform_high d ->
  pdf (Uniform_dist d) x = if Rle_dec (Uniform_low d) x then if Rle_dec x (Uniform_low d + Uniform_high d) then / Uniform_high d else 0 else 0.
Proof. exact Uniform_dist_support. Qed.

(** the interval of Uniform(1, 3) is read as [1, 4] *)
Example C41_case_uniform : pdf (Uniform_dist (mkUniform 1 3)) (7 / 2) = / 3.
Proof. rewrite C41_Uniform_partial by (simpl; lra). cbn [Uniform_low Uniform_high]. destruct (Rle_dec 1 (7 / 2)); [|lra]. destruct (Rle_dec (7 / 2) (1 + 3)); lra. Qed.

Print Assumptions C41_Uniform_partial.

(** C41 is false of LogNormal: a positive outcome has density zero. *)
Theorem C41_LogNormal_refuted :
  exists (mu sigma x : R), 0 < sigma /\ 0 < x /\ pdf (LogNormal_dist (mkLogNormal mu sigma)) x = 0.
Proof. exists 1, 1, (1 / 2). split; [lra|split; [lra|]]. exact LogNormal_dist_not_lognormal. Qed.

Print Assumptions C41_LogNormal_refuted.

(** C41, sharp: LogNormal. *)
Theorem C41_LogNormal_iff :
  forall mu sigma,
  0 < sigma ->
  ((forall x, pdf (LogNormal_dist (mkLogNormal mu sigma)) x = if Rlt_dec 0 x then lognormal_pdf mu (sigma ^ 2) x else 0) <-> mu = 0).
Proof. exact LogNormal_dist_iff. Qed.

Print Assumptions C41_LogNormal_iff.


(** C64: with a release of three or more components, [dist] works exactly from
    scipy 1.12 on; what is raised before that is NotImplementedError. *)
Theorem C64_available :
  forall (major minor micro : nat) (rest : list nat) (d : BetaNegativeBinomial R),
  ((exists f, BetaNegativeBinomial_dist (major :: minor :: micro :: rest) d = Ok f) <->
   (1 < major \/ (major = 1 /\ 12 <= minor))%nat) /\
  (forall e, BetaNegativeBinomial_dist (major :: minor :: micro :: rest) d = Raise e ->
   exists msg, e = NotImplementedError msg).
Proof.
  intros major minor micro rest d. split.
  - exact (betanbinom_dist_from R _ major minor micro rest d).
  - intros e. exact (betanbinom_dist_below R _ _ d e).
Qed.

Print Assumptions C64_available.

(** 1.9.3 is older than 1.12.0, 1.11.4 too, 2.0.0 is newer *)
Example C64_case : forall d : BetaNegativeBinomial R,
  (exists e, BetaNegativeBinomial_dist [1; 9; 3]%nat d = Raise e) /\
  (exists e, BetaNegativeBinomial_dist [1; 11; 4]%nat d = Raise e) /\
  (exists f, BetaNegativeBinomial_dist [1; 12; 0]%nat d = Ok f) /\
  (exists f, BetaNegativeBinomial_dist [2; 0; 0]%nat d = Ok f).
Proof. intros d. repeat split; eexists; reflexivity. Qed.
