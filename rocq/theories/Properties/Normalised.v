(** C66: the distributions are probability distributions. *)

From Coq Require Import Reals Lra Psatz ZArith Lia.
From Coquelicot Require Import Coquelicot.
From Verif Require Import Model.Num Model.Py Model.Dists Model.ScipyDist Model.Models Model.PyNum.
From Verif Require Import Spec.Special Spec.Densities Spec.Normalised Spec.OwnDensities.
From Verif Require Import Analysis.GammaFacts Proofs.Predictive Proofs.Normalised Proofs.OwnDensities Proofs.OwnEdge.
From Coq Require Import List.
Import ListNotations.
Open Scope R_scope.

(** C66 *)
Theorem C66_Beta :
  forall (d : Beta R),
  0 < Beta_alpha d -> 0 < Beta_beta d ->
  is_density 0 1 (pdf (Beta_dist d)).
Proof. exact Beta_density. Qed.

Example C66_Beta_case : is_density 0 1 (pdf (Beta_dist (mkBeta 2 3))).
Proof. apply Beta_density; simpl; lra. Qed.

Print Assumptions C66_Beta.

(** C66 *)
Theorem C66_Gamma :
  forall (d : Gamma R),
  0 < Gamma_alpha d -> 0 < Gamma_beta d ->
  is_density 0 p_infty (pdf (Gamma_dist d)).
Proof. exact Gamma_density. Qed.

Example C66_Gamma_case : is_density 0 p_infty (pdf (Gamma_dist (mkGamma 2 3))).
Proof. apply Gamma_density; simpl; lra. Qed.

Print Assumptions C66_Gamma.

(** C66 *)
Theorem C66_Exponential :
  forall (d : Exponential R),
  0 < Exponential_lam d ->
  is_density 0 p_infty (pdf (Exponential_dist d)).
Proof. exact Exponential_density. Qed.

Example C66_Exponential_case : is_density 0 p_infty (pdf (Exponential_dist (mkExponential 3))).
Proof. apply Exponential_density; simpl; lra. Qed.

Print Assumptions C66_Exponential.

(** C66 *)
Theorem C66_InverseGamma :
  forall (d : InverseGamma R),
  0 < InverseGamma_alpha d -> 0 < InverseGamma_beta d ->
  is_density 0 p_infty (pdf (InverseGamma_dist d)).
Proof. exact InverseGamma_density. Qed.

Example C66_InverseGamma_case : is_density 0 p_infty (pdf (InverseGamma_dist (mkInverseGamma 2 3))).
Proof. apply InverseGamma_density; simpl; lra. Qed.

Print Assumptions C66_InverseGamma.

(** C66 *)
Theorem C66_ScaledInverseChiSquared :
  forall (d : ScaledInverseChiSquared R),
  0 < ScaledInverseChiSquared_nu d -> 0 < ScaledInverseChiSquared_sigma2 d ->
  is_density 0 p_infty (pdf (ScaledInverseChiSquared_dist d)).
Proof. exact ScaledInverseChiSquared_density. Qed.

Example C66_ScaledInverseChiSquared_case : is_density 0 p_infty (pdf (ScaledInverseChiSquared_dist (mkScaledInverseChiSquared 4 3))).
Proof. apply ScaledInverseChiSquared_density; simpl; lra. Qed.

Print Assumptions C66_ScaledInverseChiSquared.

(** C66 *)
Theorem C66_Normal :
  forall (d : Normal R),
  0 < Normal_sigma d ->
  is_density m_infty p_infty (pdf (Normal_dist d)).
Proof. exact Normal_density. Qed.

Example C66_Normal_case : is_density m_infty p_infty (pdf (Normal_dist (mkNormal 1 2))).
Proof. apply Normal_density; simpl; lra. Qed.

Print Assumptions C66_Normal.

(** C66 *)
Theorem C66_StudentT :
  forall (d : StudentT R),
  0 < StudentT_nu d -> 0 < StudentT_sigma d ->
  is_density m_infty p_infty (pdf (StudentT_dist d)).
Proof. exact StudentT_density. Qed.

Example C66_StudentT_case : is_density m_infty p_infty (pdf (StudentT_dist (mkStudentT 1 2 3))).
Proof. apply StudentT_density; simpl; lra. Qed.

Print Assumptions C66_StudentT.

(** C66: the second parameter is the width, as passed to scipy *)
Theorem C66_Uniform :
  forall (d : Uniform R),
  0 < Uniform_high d ->
  is_density (Uniform_low d) (Uniform_low d + Uniform_high d) (pdf (Uniform_dist d)).
Proof. exact Uniform_density. Qed.

Example C66_Uniform_case : is_density (Uniform_low (mkUniform 1 2)) (Uniform_low (mkUniform 1 2) + Uniform_high (mkUniform 1 2)) (pdf (Uniform_dist (mkUniform 1 2))).
Proof. apply Uniform_density; simpl; lra. Qed.

Print Assumptions C66_Uniform.

(** C66 *)
Theorem C66_Pareto :
  forall (d : Pareto R),
  0 < Pareto_x_m d -> 0 < Pareto_alpha d ->
  is_density (Pareto_x_m d) p_infty (pdf (Pareto_dist d)).
Proof. exact Pareto_density. Qed.

Example C66_Pareto_case : is_density (Pareto_x_m (mkPareto 1 2)) p_infty (pdf (Pareto_dist (mkPareto 1 2))).
Proof. apply Pareto_density; simpl; lra. Qed.

Print Assumptions C66_Pareto.

(** C66 *)
Theorem C66_Lomax :
  forall (d : Lomax R),
  0 < Lomax_lam d -> 0 < Lomax_alpha d ->
  is_density 0 p_infty (pdf (Lomax_dist d)).
Proof. exact Lomax_density. Qed.

Example C66_Lomax_case : is_density 0 p_infty (pdf (Lomax_dist (mkLomax 2 3))).
Proof. apply Lomax_density; simpl; lra. Qed.

Print Assumptions C66_Lomax.

(** C66 *)
Theorem C66_Weibull :
  forall (d : Weibull R),
  0 < Weibull_beta d -> 0 < Weibull_theta d ->
  is_density 0 p_infty (pdf (Weibull_dist d)).
Proof. exact Weibull_density. Qed.

Example C66_Weibull_case : is_density 0 p_infty (pdf (Weibull_dist (mkWeibull 2 3))).
Proof. apply Weibull_density; simpl; lra. Qed.

Print Assumptions C66_Weibull.

(** C66: the support starts at mu, which the library passes as location *)
Theorem C66_LogNormal :
  forall (d : LogNormal R),
  0 < LogNormal_sigma d ->
  is_density (LogNormal_mu d) p_infty (pdf (LogNormal_dist d)).
Proof. exact LogNormal_density. Qed.

Example C66_LogNormal_case : is_density (LogNormal_mu (mkLogNormal 1 2)) p_infty (pdf (LogNormal_dist (mkLogNormal 1 2))).
Proof. apply LogNormal_density; simpl; lra. Qed.

Print Assumptions C66_LogNormal.

(** C66: on the positive numbers; the library's pdf does not test for them *)
Theorem C66_CompoundGamma :
  forall (d : CompoundGamma R),
  0 < CompoundGamma_alpha d -> 0 < CompoundGamma_beta d -> 0 < CompoundGamma_lam d ->
  (forall x, 0 < x -> 0 < pdf (CompoundGamma_dist d) x) /\
  is_RInt_gen (pdf (CompoundGamma_dist d)) (from 0) (upto p_infty) 1.
Proof. exact CompoundGamma_total. Qed.

Example C66_CompoundGamma_case : (forall x, 0 < x -> 0 < pdf (CompoundGamma_dist (mkCompoundGamma 2 3 1)) x) /\
  is_RInt_gen (pdf (CompoundGamma_dist (mkCompoundGamma 2 3 1))) (from 0) (upto p_infty) 1.
Proof. apply CompoundGamma_total; simpl; lra. Qed.

Print Assumptions C66_CompoundGamma.

(** C66: with Python's numbers CompoundGamma's own code computes that density on
    the support ... *)
Theorem C66_CompoundGamma_computed :
  forall a b q : R, 0 < a -> 0 < b -> 0 < q -> forall x, 0 < x ->
  own_compound_gamma_pdf x a b q = Ok (pdf (CompoundGamma_dist (mkCompoundGamma a b q)) x).
Proof. exact own_pdf_support. Qed.
Print Assumptions C66_CompoundGamma_computed.

(** ... and at the edge: for [a = 1] and [a > 1] the limit from the right, for [a < 1], where
    the density is unbounded, ZeroDivisionError ... *)
Theorem C66_CompoundGamma_edge :
  forall a b q : R, 0 < a -> 0 < b -> 0 < q ->
  (a = 1 -> own_compound_gamma_pdf 0 a b q = Ok (b / q) /\ filterlim (pdf (CompoundGamma_dist (mkCompoundGamma a b q))) (at_right 0) (locally (b / q))) /\
  (1 < a -> own_compound_gamma_pdf 0 a b q = Ok 0 /\ filterlim (pdf (CompoundGamma_dist (mkCompoundGamma a b q))) (at_right 0) (locally 0)) /\
  (a < 1 -> own_compound_gamma_pdf 0 a b q = Raise ZeroDivisionError).
Proof. exact own_pdf_edge. Qed.
Print Assumptions C66_CompoundGamma_edge.

Example C66_CompoundGamma_edge_case : own_compound_gamma_pdf 0 1 3 4 = Ok (3 / 4) /\ own_compound_gamma_pdf 0 2 3 4 = Ok 0 /\
  own_compound_gamma_pdf 0 (/ 2) 3 4 = Raise ZeroDivisionError.
Proof.
  split; [|split].
  - now apply (own_pdf_edge 1 3 4 ltac:(lra) ltac:(lra) ltac:(lra)).
  - apply (own_pdf_edge 2 3 4 ltac:(lra) ltac:(lra) ltac:(lra)). lra.
  - apply (own_pdf_edge (/ 2) 3 4 ltac:(lra) ltac:(lra) ltac:(lra)). lra.
Qed.

(** ... but it is not zero outside: between [-q] and 0 it is negative for even
    [a], positive for odd [a], and not a real number when [a] is no integer. *)
Theorem C66_CompoundGamma_off_support_refuted :
  forall a b q : R, 0 < a -> 0 < b -> 0 < q -> forall x, - q < x < 0 ->
  (forall m, a = INR (2 * S m) -> exists w, own_compound_gamma_pdf x a b q = Ok w /\ w < 0) /\
  (forall m, a = INR (S (2 * m)) -> exists w, own_compound_gamma_pdf x a b q = Ok w /\ 0 < w) /\
  ((forall z, a <> IZR z) -> own_compound_gamma_pdf x a b q = Raise ComplexResult).
Proof. exact own_pdf_off_support. Qed.
Print Assumptions C66_CompoundGamma_off_support_refuted.

Example C66_CompoundGamma_off_support_case : exists w, own_compound_gamma_pdf (- (1)) 2 3 4 = Ok w /\ w < 0.
Proof. apply (own_pdf_even 2 3 4 ltac:(lra) ltac:(lra) ltac:(lra) (- (1)) 0); [simpl; ring|lra]. Qed.

(** C66: once around the circle, from any angle *)
Theorem C66_VonMises :
  forall (d : VonMises R),
  (forall x, 0 < pdf (VonMises_dist d) x) /\ (forall x, pdf (VonMises_dist d) (x + 2 * PI) = pdf (VonMises_dist d) x) /\
  (forall a, is_RInt (pdf (VonMises_dist d)) a (a + 2 * PI) 1).
Proof. exact VonMises_density. Qed.

Example C66_VonMises_case : (forall x, 0 < pdf (VonMises_dist (mkVonMises 1 2)) x) /\ (forall x, pdf (VonMises_dist (mkVonMises 1 2)) (x + 2 * PI) = pdf (VonMises_dist (mkVonMises 1 2)) x) /\
  (forall a, is_RInt (pdf (VonMises_dist (mkVonMises 1 2))) a (a + 2 * PI) 1).
Proof. apply VonMises_density. Qed.

Print Assumptions C66_VonMises.

(** C66 *)
Theorem C66_Poisson :
  forall (d : Poisson R),
  0 <= Poisson_lam d ->
  is_mass 0 (pmf (Poisson_dist d)).
Proof. exact Poisson_mass. Qed.

Example C66_Poisson_case : is_mass 0 (pmf (Poisson_dist (mkPoisson 3))).
Proof. apply Poisson_mass; simpl; lra. Qed.

Print Assumptions C66_Poisson.

(** C66: the number of successes need not be whole *)
Theorem C66_NegativeBinomial :
  forall (d : NegativeBinomial R),
  0 < NegativeBinomial_n d -> 0 < NegativeBinomial_p d <= 1 ->
  is_mass 0 (pmf (NegativeBinomial_dist d)).
Proof. exact NegativeBinomial_mass. Qed.

Example C66_NegativeBinomial_case : is_mass 0 (pmf (NegativeBinomial_dist (mkNegativeBinomial (5/2) (1/3)))).
Proof. apply NegativeBinomial_mass; simpl; lra. Qed.

Print Assumptions C66_NegativeBinomial.

(** C66 *)
Theorem C66_Geometric :
  forall (d : Geometric R),
  0 < Geometric_p d <= 1 ->
  is_mass (if Geometric_one_start d then 1 else 0) (pmf (Geometric_dist d)).
Proof. exact Geometric_mass. Qed.

Example C66_Geometric_case : is_mass (if Geometric_one_start (mkGeometric (1/3) true) then 1 else 0) (pmf (Geometric_dist (mkGeometric (1/3) true))).
Proof. apply Geometric_mass; simpl; lra. Qed.

Print Assumptions C66_Geometric.

(** C66: whatever the release of scipy, if there is a distribution *)
Theorem C66_BetaNegativeBinomial :
  forall (rel : list nat) (d : BetaNegativeBinomial R) f,
  0 < BetaNegativeBinomial_n d -> 0 < BetaNegativeBinomial_alpha d -> 0 < BetaNegativeBinomial_beta d ->
  BetaNegativeBinomial_dist rel d = Ok f ->
  is_mass 0 (pmf f).
Proof. exact BetaNegativeBinomial_mass. Qed.

Example C66_BetaNegativeBinomial_case : exists f,
  BetaNegativeBinomial_dist [1; 12; 0]%nat (mkBetaNegativeBinomial 2 3 4) = Ok f /\ is_mass 0 (pmf f).
Proof.
  eexists. split; [reflexivity|].
  apply (BetaNegativeBinomial_mass [1; 12; 0]%nat (mkBetaNegativeBinomial 2 3 4)); simpl; try lra. reflexivity.
Qed.

Print Assumptions C66_BetaNegativeBinomial.

(** C66 *)
Theorem C66_Binomial :
  forall (n : nat) (p : R),
  0 <= p <= 1 ->
  is_mass 0 (pmf (Binomial_dist (mkBinomial (INR n) p))).
Proof. exact Binomial_mass. Qed.

Example C66_Binomial_case : is_mass 0 (pmf (Binomial_dist (mkBinomial (INR 5) (1 / 3)))).
Proof. apply Binomial_mass. lra. Qed.

Print Assumptions C66_Binomial.

(** C66 *)
Theorem C66_BetaBinomial :
  forall (n : nat) (a b : R),
  0 < a -> 0 < b ->
  is_mass 0 (pmf (BetaBinomial_dist (mkBetaBinomial (INR n) a b))).
Proof. exact BetaBinomial_mass. Qed.

Example C66_BetaBinomial_case : is_mass 0 (pmf (BetaBinomial_dist (mkBetaBinomial (INR 5) 1 (1 / 3)))).
Proof. apply BetaBinomial_mass; lra. Qed.

Print Assumptions C66_BetaBinomial.

(** C66 *)
Theorem C66_Hypergeometric :
  forall (N k n : nat),
  (k <= N)%nat -> (n <= N)%nat ->
  is_mass 0 (pmf (Hypergeometric_dist (mkHypergeometric (INR N) (INR k) (INR n)))).
Proof. exact Hypergeometric_mass. Qed.

Example C66_Hypergeometric_case : is_mass 0 (pmf (Hypergeometric_dist (mkHypergeometric (INR 10) (INR 4) (INR 3)))).
Proof. apply Hypergeometric_mass; lia. Qed.

Print Assumptions C66_Hypergeometric.

(** C66 is false for BetaGeometric: whatever the parameters, the masses do not sum to one. *)
Theorem C66_BetaGeometric_refuted :
  forall (d : BetaGeometric R),
  0 < BetaGeometric_alpha d -> 0 < BetaGeometric_beta d ->
  ~ is_mass (if BetaGeometric_one_start d then 1 else 0) (pmf (BetaGeometric_dist d)).
Proof. exact BetaGeometric_not_mass. Qed.

Example C66_BetaGeometric_case : ~ is_mass 1 (pmf (BetaGeometric_dist (mkBetaGeometric 2 3 true))).
Proof. apply (BetaGeometric_not_mass (mkBetaGeometric 2 3 true)); simpl; lra. Qed.

Print Assumptions C66_BetaGeometric_refuted.

(** C66: what the masses of BetaGeometric sum to *)
Theorem C66_BetaGeometric_total :
  forall (d : BetaGeometric R),
  0 < BetaGeometric_alpha d -> 0 < BetaGeometric_beta d ->
  is_series (fun k : nat => pmf (BetaGeometric_dist d) ((if BetaGeometric_one_start d then 1 else 0) + Z.of_nat k))
    (BetaGeometric_beta d / (BetaGeometric_alpha d + BetaGeometric_beta d)).
Proof. exact BetaGeometric_total. Qed.

Example C66_BetaGeometric_total_case :
  is_series (fun k : nat => pmf (BetaGeometric_dist (mkBetaGeometric 2 3 true)) (1 + Z.of_nat k)) (3 / (2 + 3)).
Proof. apply (BetaGeometric_total (mkBetaGeometric 2 3 true)); simpl; lra. Qed.

Print Assumptions C66_BetaGeometric_total.

(** C66: the rest of the mass of BetaGeometric is one place below its support. *)
Theorem C66_BetaGeometric_off_support_refuted :
  forall (d : BetaGeometric R),
  0 < BetaGeometric_alpha d -> 0 < BetaGeometric_beta d ->
  pmf (BetaGeometric_dist d) ((if BetaGeometric_one_start d then 1 else 0) - 1)
    = BetaGeometric_alpha d / (BetaGeometric_alpha d + BetaGeometric_beta d) /\
  0 < BetaGeometric_alpha d / (BetaGeometric_alpha d + BetaGeometric_beta d).
Proof. exact own_pmf_below. Qed.
Print Assumptions C66_BetaGeometric_off_support_refuted.

Example C66_BetaGeometric_off_support_case : pmf (BetaGeometric_dist (mkBetaGeometric 2 3 true)) 0 = 2 / (2 + 3).
Proof. apply (own_pmf_below (mkBetaGeometric 2 3 true)); simpl; lra. Qed.
