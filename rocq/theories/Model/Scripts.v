(** /repo/scripts/parameter-recovery.py: the set-ups of the recovery exercise.

    Each Python function returns a sampler of the true distribution, the function from data
    to posterior, and the true value of the parameter.  The literals at the top of the
    functions are arguments here.  [data.sum()] adds from the right (the order of addition
    is not modelled) and [len(data)] is an integer literal. *)

From Coq Require Import ZArith Bool String List.
From Verif Require Import Model.Num Model.Py Model.Dists Model.ScipyDist Model.Models.
Import ListNotations.

Open Scope num_scope.

Section Scripts.
Context {A : Type} {NA : Num A}.

Record Setup (D : Type) := mkSetup {
  setup_dist : frozen A;          (* true_distribution.dist, which sample_data draws from *)
  setup_posterior : list A -> D;         (* get_posterior *)
  setup_truth : A                        (* the third component *)
}.

Arguments mkSetup {D}.
Arguments setup_dist {D}.
Arguments setup_posterior {D}.
Arguments setup_truth {D}.

Definition data_sum (data : list A) : A := fold_right nadd (nlit 0) data.
Definition data_len (data : list A) : A := nlit (Z.of_nat (List.length data)).

(** scripts/parameter-recovery.py:7-24 binomial; the inner [n] of get_posterior is the number of trials *)
Definition recover_binomial (prior : Beta A) (n true_p : A) : Setup (Beta A) :=
  mkSetup (Binomial_dist (mkBinomial n true_p))
    (fun data => binomial_beta (data_len data * n) (data_sum data) prior) true_p.

(** scripts/parameter-recovery.py:27-42 geometric; [one_start] is left at its default True in both calls *)
Definition recover_geometric (prior : Beta A) (true_p : A) : Setup (Beta A) :=
  mkSetup (Geometric_dist (mkGeometric true_p true))
    (fun data => geometric_beta (data_sum data) (data_len data) prior true) true_p.

(** scripts/parameter-recovery.py:45-60 poisson *)
Definition recover_poisson (prior : Gamma A) (true_lam : A) : Setup (Gamma A) :=
  mkSetup (Poisson_dist (mkPoisson true_lam))
    (fun data => poisson_gamma (data_sum data) (data_len data) prior) true_lam.

(** scripts/parameter-recovery.py:63-84 negative_binomial *)
Definition recover_negative_binomial (prior : Beta A) (r true_p : A) : Setup (Beta A) :=
  mkSetup (NegativeBinomial_dist (mkNegativeBinomial r true_p))
    (fun data => negative_binomial_beta r (data_len data) (data_sum data) prior) true_p.

(** scripts/parameter-recovery.py:87-109 hypergeometric, marked as incorrect by its author; the prior is
    BetaBinomial(n=N, alpha, beta) *)
Definition recover_hypergeometric (N k n alpha beta : A) : Setup (BetaBinomial A) :=
  mkSetup (Hypergeometric_dist (mkHypergeometric N k n))
    (fun data => hypergeometric_beta_binomial (data_sum data) (data_len data) (mkBetaBinomial N alpha beta)) k.

(** scripts/parameter-recovery.py:112-134 normal_known_variance *)
Definition recover_normal_known_variance (prior : Normal A) (true_mu known_sigma : A) : Setup (Normal A) :=
  mkSetup (Normal_dist (mkNormal true_mu known_sigma))
    (fun data => normal_known_variance (data_sum data) (data_len data) (nsq known_sigma) prior) true_mu.

(** scripts/parameter-recovery.py:137-159 normal_known_precision *)
Definition recover_normal_known_precision (prior : Normal A) (true_mu known_tau : A) : Setup (Normal A) :=
  mkSetup (Normal_dist (mkNormal true_mu (nsqrt (nlit 1 / known_tau))))
    (fun data => normal_known_precision (data_sum data) (data_len data) known_tau prior) true_mu.

(** scripts/parameter-recovery.py:162-185 normal_known_mean and 188-211 normal_known_mean_alternative,
    which differ in the class of the prior *)
Definition recover_normal_known_mean (prior : VariancePrior A) (known_mu true_sigma : A) : Setup (VariancePrior A) :=
  mkSetup (Normal_dist (mkNormal known_mu true_sigma))
    (fun data => normal_known_mean (data_sum data) (data_sum (map nsq data)) (data_len data) known_mu prior)
    (nsq true_sigma).

(** scripts/parameter-recovery.py:214-229 uniform; [max_fn] is np.maximum and [data.max()] of an empty
    array, an exception in numpy, is the start value 0 here *)
Definition recover_uniform (max_fn : A -> A -> A) (prior : Pareto A) (true_theta : A) : Setup (Pareto A) :=
  mkSetup (Uniform_dist (mkUniform (nlit 0) true_theta))
    (fun data => uniform_pareto max_fn (fold_right max_fn (nlit 0) data) (data_len data) prior) true_theta.

(** scripts/parameter-recovery.py:232-247 exponential *)
Definition recover_exponential (prior : Gamma A) (true_lam : A) : Setup (Gamma A) :=
  mkSetup (Exponential_dist (mkExponential true_lam))
    (fun data => exponential_gamma (data_sum data) (data_len data) prior) true_lam.

(** scripts/parameter-recovery.py:250-272 inverse_gamma_known_rate *)
Definition recover_inverse_gamma_known_rate (prior : Gamma A) (alpha beta : A) : Setup (Gamma A) :=
  mkSetup (InverseGamma_dist (mkInverseGamma alpha beta))
    (fun data => inverse_gamma_known_rate (data_sum (map (fun x => nlit 1 / x) data)) (data_len data) alpha prior) beta.

(** scripts/parameter-recovery.py:275-295 weibull_known_shape *)
Definition recover_weibull (prior : InverseGamma A) (beta theta : A) : Setup (InverseGamma A) :=
  mkSetup (Weibull_dist (mkWeibull beta theta))
    (fun data => weibull_inverse_gamma_known_shape (data_len data) (data_sum (map (fun x => npow x beta) data)) prior) theta.

(** scripts/parameter-recovery.py:298-320 normal_normal_gamma; [.gamma] of the posterior *)
Definition recover_normal_gamma (prior : NormalGamma A) (true_mu true_precision : A) : Setup (res (Gamma A)) :=
  mkSetup (Normal_dist (mkNormal true_mu (nsqrt (nlit 1 / true_precision))))
    (fun data =>
       match normal (M := A) (data_sum data) (data_sum (map nsq data)) (data_len data) (PNG prior) with
       | Ok (PNG d) => Ok (NormalGamma_gamma d)
       | Ok (PNIG _) => Raise (AttributeError "'NormalInverseGamma' object has no attribute 'gamma'")
       | Raise e => Raise e
       end)
    true_precision.
End Scripts.

Arguments mkSetup {A D}.
Arguments setup_dist {A D}.
Arguments setup_posterior {A D}.
Arguments setup_truth {A D}.
