(** C74: predicting one observation at a time. *)

From Coq Require Import Reals Lra ZArith Lia.
From Coquelicot Require Import Coquelicot.
From Verif Require Import Model.Num Model.Py Model.NdArray Model.DirichletModel Model.Dists Model.ScipyDist Model.Models.
From Verif Require Import Spec.Special Spec.Densities Spec.Bayes Spec.Joint Spec.Simplex Spec.Prequential.
From Verif Require Import Analysis.GammaFacts Proofs.Conj Proofs.Predictive Proofs.Prequential.
From Coq Require Import List.
Import ListNotations.
Open Scope R_scope.

(** C74: binomial_beta and its predictive; observation [(n, k)] is k successes of n. *)
Theorem C74_binomial_beta :
  prequential (over1 Fpos0 Fone) (fun d => pdf (Beta_dist d))
    (fun p (o : nat * nat) => pmf (Binomial_dist (mkBinomial (INR (fst o)) p)) (Z.of_nat (snd o)))
    (fun d o => Ok (binomial_beta (INR (fst o)) (INR (snd o)) d))
    (fun d o => Ok (pmf (BetaBinomial_dist (binomial_beta_predictive (INR (fst o)) d)) (Z.of_nat (snd o))))
    anywhere (fun d => 0 < Beta_alpha d /\ 0 < Beta_beta d) (fun o => (snd o <= fst o)%nat).
Proof. exact binomial_prequential. Qed.

Example C74_case : exists e c,
  one_by_one (fun d (o : nat * nat) => Ok (binomial_beta (INR (fst o)) (INR (snd o)) d))
    (fun d o => Ok (pmf (BetaBinomial_dist (binomial_beta_predictive (INR (fst o)) d)) (Z.of_nat (snd o))))
    (mkBeta 1 2) [(3, 2); (5, 1)]%nat = Ok (e, c) /\ 0 < c.
Proof.
  destruct (C74_binomial_beta (mkBeta 1 2) [(3, 2); (5, 1)]%nat) as (e & c & E & _ & H & _).
  - simpl; lra.
  - repeat constructor.
  - exists e, c. split; [exact E|exact H].
Qed.

Print Assumptions C74_binomial_beta.

(** C74: bernoulli_beta and its predictive *)
Theorem C74_bernoulli_beta :
  prequential (over1 Fpos0 Fone) (fun d => pdf (Beta_dist d))
    (fun p (x : nat) => if Nat.eqb x 1 then p else 1 - p)
    (fun d x => Ok (bernoulli_beta (INR x) d))
    (fun d x => Ok (pmf (BetaBinomial_dist (bernoulli_beta_predictive d)) (Z.of_nat x)))
    anywhere (fun d => 0 < Beta_alpha d /\ 0 < Beta_beta d) (fun x => (x <= 1)%nat).
Proof. exact bernoulli_prequential. Qed.

Example C74_bernoulli_case : (0 < Beta_alpha (mkBeta 1 2) /\ 0 < Beta_beta (mkBeta 1 2)) /\ Forall (fun x => (x <= 1)%nat) [1; 0; 1]%nat.
Proof. split; [simpl; lra|repeat constructor]. Qed.

Print Assumptions C74_bernoulli_beta.

(** C74: negative_binomial_beta and its predictive, for the releases of scipy that have the distribution *)
Theorem C74_negative_binomial_beta :
  forall (major minor micro : nat) (rest : list nat) (r : R),
  0 < r -> (1 < major \/ (major = 1 /\ 12 <= minor))%nat ->
  prequential (over1 Fpos0 Fone) (fun d => pdf (Beta_dist d))
    (fun p (x : nat) => pmf (NegativeBinomial_dist (mkNegativeBinomial r p)) (Z.of_nat x))
    (fun d x => Ok (negative_binomial_beta r 1 (INR x) d))
    (fun d x => let* D := BetaNegativeBinomial_dist (major :: minor :: micro :: rest) (negative_binomial_beta_predictive r d) in Ok (pmf D (Z.of_nat x)))
    anywhere (fun d => 0 < Beta_alpha d /\ 0 < Beta_beta d) (fun _ => True).
Proof. exact negative_binomial_prequential. Qed.

Example C74_negative_binomial_case : 0 < 3 /\ (1 < 1 \/ (1 = 1 /\ 12 <= 13))%nat /\ 0 < Beta_alpha (mkBeta 1 2) /\ 0 < Beta_beta (mkBeta 1 2).
Proof. simpl. split; [lra|]. split; [lia|lra]. Qed.

Print Assumptions C74_negative_binomial_beta.

(** C74: poisson_gamma and its predictive of one unit *)
Theorem C74_poisson_gamma :
  prequential (over1 Fpos0 Finf) (fun d => pdf (Gamma_dist d))
    (fun lam (x : nat) => pmf (Poisson_dist (mkPoisson lam)) (Z.of_nat x))
    (fun d x => Ok (poisson_gamma (INR x) 1 d))
    (fun d x => Ok (pmf (NegativeBinomial_dist (poisson_gamma_predictive d 1)) (Z.of_nat x)))
    anywhere (fun d => 0 < Gamma_alpha d /\ 0 < Gamma_beta d) (fun _ => True).
Proof. exact poisson_prequential. Qed.

Example C74_poisson_case : exists e c,
  one_by_one (fun d (x : nat) => Ok (poisson_gamma (INR x) 1 d))
    (fun d x => Ok (pmf (NegativeBinomial_dist (poisson_gamma_predictive d 1)) (Z.of_nat x))) (mkGamma 2 3) [4; 0; 1]%nat = Ok (e, c) /\
  exists e', one_by_one (fun d (x : nat) => Ok (poisson_gamma (INR x) 1 d))
    (fun d x => Ok (pmf (NegativeBinomial_dist (poisson_gamma_predictive d 1)) (Z.of_nat x))) (mkGamma 2 3) [0; 4; 1]%nat = Ok (e', c).
Proof.
  destruct (C74_poisson_gamma (mkGamma 2 3) [4; 0; 1]%nat) as (e & c & E & _ & _ & _ & _ & H).
  - simpl; lra.
  - repeat constructor.
  - exists e, c. split; [exact E|]. apply H. constructor.
Qed.

Print Assumptions C74_poisson_gamma.

(** C74: gamma_known_shape and its predictive *)
Theorem C74_gamma_known_shape :
  forall (alpha : R), 0 < alpha ->
  prequential (over1 Fpos0 Finf) (fun d => pdf (Gamma_dist d))
    (fun rate x => pdf (Gamma_dist (mkGamma alpha rate)) x)
    (fun d x => Ok (gamma_known_shape x 1 alpha d))
    (fun d x => Ok (pdf (CompoundGamma_dist (gamma_known_shape_predictive d alpha)) x))
    anywhere (fun d => 0 < Gamma_alpha d /\ 0 < Gamma_beta d) (fun x => 0 < x).
Proof. exact gamma_known_shape_prequential. Qed.

Example C74_gamma_case : 0 < 2 /\ (0 < Gamma_alpha (mkGamma 3 4) /\ 0 < Gamma_beta (mkGamma 3 4)) /\ Forall (fun x => 0 < x) [1; 5].
Proof. split; [lra|]. split; [simpl; lra|repeat constructor; lra]. Qed.

Print Assumptions C74_gamma_known_shape.

(** C74: normal_known_variance and its predictive *)
Theorem C74_normal_known_variance :
  forall (var : R), 0 < var ->
  prequential (over1 Fminf Finf) (fun d => pdf (Normal_dist d))
    (fun m x => pdf (Normal_dist (mkNormal m (sqrt var))) x)
    (fun d x => Ok (normal_known_variance x 1 var d))
    (fun d x => Ok (pdf (Normal_dist (normal_known_variance_predictive var d)) x))
    anywhere (fun d => 0 < Normal_sigma d) (fun _ => True).
Proof. exact normal_known_variance_prequential. Qed.

Example C74_normal_case : 0 < 16 /\ 0 < Normal_sigma (mkNormal 1 3).
Proof. simpl; lra. Qed.

Print Assumptions C74_normal_known_variance.

(** C74: normal_known_precision and its predictive *)
Theorem C74_normal_known_precision :
  forall (precision : R), 0 < precision ->
  prequential (over1 Fminf Finf) (fun d => pdf (Normal_dist d))
    (fun m x => pdf (Normal_dist (mkNormal m (/ sqrt precision))) x)
    (fun d x => Ok (normal_known_precision x 1 precision d))
    (fun d x => Ok (pdf (Normal_dist (normal_known_precision_predictive precision d)) x))
    anywhere (fun d => 0 < Normal_sigma d) (fun _ => True).
Proof. exact normal_known_precision_prequential. Qed.

Example C74_precision_case : 0 < / 16 /\ 0 < Normal_sigma (mkNormal 1 3).
Proof. simpl; lra. Qed.

Print Assumptions C74_normal_known_precision.

(** C74: normal_known_mean and its predictive, for both families of priors *)
Theorem C74_normal_known_mean :
  forall (mu : R),
  prequential (over1 Fpos0 Finf) (fun d => pdf (variance_dist d))
    (fun v x => pdf (Normal_dist (mkNormal mu (sqrt v))) x)
    (fun d x => Ok (normal_known_mean x (x ^ 2) 1 mu d))
    (fun d x => Ok (pdf (StudentT_dist (normal_known_mean_predictive mu d)) x))
    anywhere variance_ok (fun _ => True).
Proof. exact normal_known_mean_prequential. Qed.

Example C74_known_mean_case : variance_ok (VSICS (mkScaledInverseChiSquared 4 2)) /\ variance_ok (VIG (mkInverseGamma 2 4)).
Proof. simpl; lra. Qed.

Print Assumptions C74_normal_known_mean.

(** C74: normal and its predictive, for both families of priors ([sd] is the
    standard deviation as a function of the second parameter). *)
Theorem C74_normal :
  forall {M : Type} (sd : R -> R),
  prequential (over2 Fminf Finf Fpos0 Finf (fun v => 0 < v))
    (fun (d : NormalPrior R M) p => normal_prior_pdf d (fst p) (snd p))
    (fun p x => pdf (Normal_dist (mkNormal (fst p) (sd (snd p)))) x)
    (fun d x => normal x (x ^ 2) 1 d)
    (fun d x => let* t := normal_predictive d in Ok (pdf (StudentT_dist t) x))
    anywhere (fun d => normal_prior_ok d /\ forall v, normal_obs_sd d v = sd v) (fun _ => True).
Proof. exact @normal_prequential. Qed.

Example C74_normal2_case :
  let d := PNIG (M := unit) (mkNormalInverseGamma 0 2 3 None (Some 1)) in
  normal_prior_ok d /\ forall v, normal_obs_sd d v = sqrt v.
Proof. split; [|reflexivity]. split; [reflexivity|]. split; [exists 1; split; [reflexivity|lra]|simpl; lra]. Qed.

Print Assumptions C74_normal.

(** C74: multinomial_dirichlet and its predictive, for every number of
    categories; an observation is a vector of counts, with any number of trials. *)
Theorem C74_multinomial_dirichlet :
  forall (n : nat),
  prequential (is_simplex_int n 1) (fun d => dirichlet_pdf (alphas n (Dirichlet_alpha d))) multinomial_pmf
    (fun d x => with_alpha (multinomial_dirichlet (CArr (as_array (map INR x)))) d)
    (fun d x => let P := multinomial_dirichlet_predictive (Some (INR (sumN x))) d in
       Ok (dirichlet_multinomial_pmf (alphas n (DirichletMultinomial_alpha P)) (Rnat (DirichletMultinomial_n P)) x))
    (on_simplex n 1) (dirichlet_ok n) (fun x => length x = S n).
Proof. exact multinomial_prequential. Qed.

Example C74_multinomial_case : dirichlet_ok 2 (Dirichlet_uninformative 3) /\ Forall (fun x => length x = 3%nat) [[5; 2; 1]; [3; 1; 0]]%nat.
Proof. split; [|repeat constructor]. eexists. split; [reflexivity|]. split; [reflexivity|]. simpl. repeat constructor; lra. Qed.

Print Assumptions C74_multinomial_dirichlet.

(** C74: categorical_dirichlet, whose argument counts the categories, and its
    predictive of one trial; an observation is a category. *)
Theorem C74_categorical_dirichlet :
  forall (n : nat),
  prequential (is_simplex_int n 1) (fun d => dirichlet_pdf (alphas n (Dirichlet_alpha d))) categorical_pmf
    (fun d k => with_alpha (categorical_dirichlet (CArr (as_array (map INR (counts n [k]))))) d)
    (fun d k => let P := categorical_dirichlet_predictive None d in
       Ok (dirichlet_multinomial_pmf (alphas n (DirichletMultinomial_alpha P)) (Rnat (DirichletMultinomial_n P)) (counts n [k])))
    (on_simplex n 1) (dirichlet_ok n) (fun k => (k <= n)%nat).
Proof. exact categorical_prequential. Qed.

Example C74_categorical_case : counts 2 [1]%nat = [0; 1; 0]%nat /\ dirichlet_ok 2 (Dirichlet_uninformative 3).
Proof. split; [reflexivity|]. eexists. split; [reflexivity|]. split; [reflexivity|]. simpl. repeat constructor; lra. Qed.

Print Assumptions C74_categorical_dirichlet.
