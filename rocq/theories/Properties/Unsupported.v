(** C91: predictive distributions of the models without a predictive function
    (docs/examples/unsupported-distributions.md). *)

From Coq Require Import ZArith Reals Lra.
From Coquelicot Require Import Coquelicot.
From Verif Require Import Model.Num Model.Py Model.Dists Model.ScipyDist Model.Models.
From Verif Require Import Spec.Densities Spec.Bayes Analysis.Improper Analysis.GammaFacts Proofs.Unsupported.
From Coq Require Import List.
Import ListNotations.
Open Scope R_scope.

(** C91: the Pareto model of the page, whose predictive the page calls unsupported: the
    logarithm of [x / x_m] has the distribution of the library's own [Lomax], with the
    parameters of the posterior. *)
Theorem C91_pareto_gamma :
  forall (prior : Gamma R) (x_m : R) (data : list R),
  0 < Gamma_alpha prior -> 0 < Gamma_beta prior -> 0 < x_m -> List.Forall (fun x => x_m <= x) data ->
  let posterior := pareto_gamma ln (INR (length data)) (sumR (map ln data)) x_m prior in
  forall x, x_m <= x ->
  marginal Fpos0 Finf (pdf (Gamma_dist posterior)) (fun alpha => pdf (Pareto_dist (mkPareto x_m alpha)) x)
    (pdf (Lomax_dist (mkLomax (Gamma_alpha posterior) (Gamma_beta posterior))) (ln (x / x_m)) / x).
Proof. exact pareto_gamma_unsupported. Qed.

Example C91_case : 0 < Gamma_alpha (mkGamma 1 1) /\ 0 < Gamma_beta (mkGamma 1 1) /\ List.Forall (fun x => 1 <= x) [2; 5 / 2; 7].
Proof. simpl. repeat split; try lra. repeat (apply List.Forall_cons; [lra|]). apply List.Forall_nil. Qed.
Print Assumptions C91_pareto_gamma.

(** ... for the Weibull model, it is the power [x ^ shape] ... *)
Theorem C91_weibull :
  forall (d : InverseGamma R) (shape x : R), 0 < InverseGamma_alpha d -> 0 < InverseGamma_beta d -> 0 < shape -> 0 < x ->
  marginal Fpos0 Finf (pdf (InverseGamma_dist d)) (fun theta => pdf (Weibull_dist (mkWeibull shape theta)) x)
    (pdf (Lomax_dist (mkLomax (InverseGamma_alpha d) (InverseGamma_beta d))) (Rpower x shape) * (shape * Rpower x (shape - 1))).
Proof. exact weibull_law. Qed.
Example C91_case_weibull : 0 < InverseGamma_alpha (mkInverseGamma 2 3) /\ 0 < InverseGamma_beta (mkInverseGamma 2 3) /\ Rpower 3 2 = 9.
Proof. simpl. repeat split; try lra. replace 2 with (INR 2) by (simpl; ring). rewrite Rpower_pow by lra. simpl. ring. Qed.

Print Assumptions C91_weibull.

(** ... for the inverse gamma model with known shape, the reciprocal has the predictive
    distribution of the gamma model ... *)
Theorem C91_inverse_gamma :
  forall (d : Gamma R) (alpha x : R), 0 < Gamma_alpha d -> 0 < Gamma_beta d -> 0 < alpha -> 0 < x ->
  marginal Fpos0 Finf (pdf (Gamma_dist d)) (fun rate => pdf (InverseGamma_dist (mkInverseGamma alpha rate)) x)
    (pdf (CompoundGamma_dist (gamma_known_shape_predictive d alpha)) (1 / x) / x ^ 2).
Proof. exact inverse_gamma_law. Qed.
Example C91_case_inverse_gamma : 0 < Gamma_alpha (mkGamma 2 3) /\ 0 < Gamma_beta (mkGamma 2 3) /\ gamma_known_shape_predictive (mkGamma 2 3) 4 = mkCompoundGamma 4 2 3.
Proof. simpl. repeat split; lra. Qed.

Print Assumptions C91_inverse_gamma.

(** ... and for the uniform model it is flat up to the smallest possible bound, a Pareto
    tail above it. *)
Theorem C91_uniform :
  forall (d : Pareto R) (x : R), 0 < Pareto_alpha d -> 0 < Pareto_x_m d -> 0 <= x ->
  let a := Pareto_alpha d in let m := Pareto_x_m d in
  marginal Fpos0 Finf (pdf (Pareto_dist d)) (fun theta => pdf (Uniform_dist (mkUniform 0 theta)) x)
    (a * Rpower m a / ((a + 1) * Rpower (Rmax m x) (a + 1))).
Proof. exact uniform_law. Qed.
(** Pareto(x_m = 2, alpha = 1): the density is 1 / 4 on [0, 2] and 1 / x^2 above *)
Example C91_case_uniform : 1 * Rpower 2 1 / ((1 + 1) * Rpower (Rmax 2 1) (1 + 1)) = / 4.
Proof. rewrite Rmax_left by lra. replace (1 + 1) with (INR 2) by (simpl; ring). rewrite Rpower_pow, Rpower_1 by lra. simpl. field. Qed.

Print Assumptions C91_uniform.
