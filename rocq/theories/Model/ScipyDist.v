(** The [dist] properties of /repo/conjugate/distributions.py.

    A frozen scipy.stats distribution is represented by the call that creates
    it: which distribution and exactly which shape/loc/scale arguments.  What
    density such an object has is scipy's business, written down independently in
    [Spec/Densities.v]. *)

From Coq Require Import ZArith Bool List String.
From Verif Require Import Model.Num Model.Py Model.Dists.
Import ListNotations.

Open Scope num_scope.

Section Frozen.
Context {A : Type} {NA : Num A}.

(** Calls to scipy.stats made by the library, named arguments in scipy's order.
    An omitted [loc] is 0 and an omitted [scale] is 1; the constructors keep
    only those arguments the library passes.  The last two are the classes in
    conjugate/_beta_geometric.py and conjugate/_compound_gamma.py. *)
Inductive frozen :=
| S_beta (a b : A)
| S_binom (n p : A)
| S_expon_scale (scale : A)
| S_gamma_scale (a scale : A)
| S_nbinom (n p : A)
| S_hypergeom (M n N : A)
| S_poisson (mu : A)
| S_betabinom (n a b : A)
| S_betanbinom (n a b : A)
| S_geom_loc (p loc : A)
| S_norm (loc scale : A)
| S_uniform (loc scale : A)
| S_pareto_scale (b scale : A)
| S_invgamma_scale (a scale : A)
| S_t (df loc scale : A)
| S_lomax_scale (c scale : A)
| S_vonmises_loc (kappa loc : A)
| S_lognorm_loc (s loc : A)
| S_weibull_min_scale (c scale : A)
| C_beta_geometric (a b : A) (one_start : bool)
| C_compound_gamma (a b q : A).

(** distributions.py:101-103 *)
Definition Beta_dist (d : Beta A) := S_beta (Beta_alpha d) (Beta_beta d).
(** distributions.py:124-126 *)
Definition Binomial_dist (d : Binomial A) := S_binom (Binomial_n d) (Binomial_p d).
(** distributions.py:216-218 *)
Definition Exponential_dist (d : Exponential A) := S_expon_scale (Exponential_lam d).
(** distributions.py:245-247 *)
Definition Gamma_dist (d : Gamma A) := S_gamma_scale (Gamma_alpha d) (nlit 1 / Gamma_beta d).
(** distributions.py:268-270 *)
Definition NegativeBinomial_dist (d : NegativeBinomial A) :=
  S_nbinom (NegativeBinomial_n d) (NegativeBinomial_p d).
(** distributions.py:299-301 *)
Definition Hypergeometric_dist (d : Hypergeometric A) :=
  S_hypergeom (Hypergeometric_N d) (Hypergeometric_k d) (Hypergeometric_n d).
(** distributions.py:315-317 *)
Definition Poisson_dist (d : Poisson A) := S_poisson (Poisson_lam d).
(** distributions.py:351-353 *)
Definition BetaBinomial_dist (d : BetaBinomial A) :=
  S_betabinom (BetaBinomial_n d) (BetaBinomial_alpha d) (BetaBinomial_beta d).

(** Comparison of version tuples: Python's lexicographic [<] on tuples of ints. *)
Fixpoint tuple_lt (a b : list nat) : bool :=
  match a, b with
  | _, [] => false
  | [], _ :: _ => true
  | x :: a', y :: b' => Nat.ltb x y || (Nat.eqb x y && tuple_lt a' b')
  end.

(** distributions.py:377-383; [scipy_release] is [version.parse(scipy_version).release] *)
Definition BetaNegativeBinomial_dist (scipy_release : list nat) (d : BetaNegativeBinomial A) : res frozen :=
  if tuple_lt scipy_release [1; 12; 0]%nat
  then Raise (NotImplementedError "BetaNegativeBinomial.dist requires scipy >= 1.12.0")
  else Ok (S_betanbinom (BetaNegativeBinomial_n d) (BetaNegativeBinomial_alpha d)
                        (BetaNegativeBinomial_beta d)).
(** distributions.py:399-402 *)
Definition Geometric_dist (d : Geometric A) :=
  let loc := if Geometric_one_start d then nlit 0 else nlit (-1) in
  S_geom_loc (Geometric_p d) loc.
(** distributions.py:420-422 *)
Definition BetaGeometric_dist (d : BetaGeometric A) :=
  C_beta_geometric (BetaGeometric_alpha d) (BetaGeometric_beta d) (BetaGeometric_one_start d).
(** distributions.py:438-440 *)
Definition Normal_dist (d : Normal A) := S_norm (Normal_mu d) (Normal_sigma d).
(** distributions.py:505-507; scipy's positional arguments are loc, scale *)
Definition Uniform_dist (d : Uniform A) := S_uniform (Uniform_low d) (Uniform_high d).
(** distributions.py:523-525 *)
Definition Pareto_dist (d : Pareto A) := S_pareto_scale (Pareto_alpha d) (Pareto_x_m d).
(** distributions.py:541-543 *)
Definition InverseGamma_dist (d : InverseGamma A) :=
  S_invgamma_scale (InverseGamma_alpha d) (InverseGamma_beta d).
(** distributions.py:685-687 *)
Definition StudentT_dist (d : StudentT A) := S_t (StudentT_nu d) (StudentT_mu d) (StudentT_sigma d).
(** distributions.py:731-733 *)
Definition Lomax_dist (d : Lomax A) := S_lomax_scale (Lomax_alpha d) (Lomax_lam d).
(** distributions.py:751-753 *)
Definition CompoundGamma_dist (d : CompoundGamma A) :=
  C_compound_gamma (CompoundGamma_alpha d) (CompoundGamma_beta d) (CompoundGamma_lam d).
(** distributions.py:889-891 *)
Definition VonMises_dist (d : VonMises A) := S_vonmises_loc (VonMises_kappa d) (VonMises_mu d).
(** distributions.py:995-997 *)
Definition ScaledInverseChiSquared_dist (d : ScaledInverseChiSquared A) :=
  S_invgamma_scale (ScaledInverseChiSquared_nu d / nlit 2)
                   (ScaledInverseChiSquared_nu d * ScaledInverseChiSquared_sigma2 d / nlit 2).
(** distributions.py:1305-1307 *)
Definition LogNormal_dist (d : LogNormal A) := S_lognorm_loc (LogNormal_sigma d) (LogNormal_mu d).
(** distributions.py:1352-1356 *)
Definition Weibull_dist (d : Weibull A) :=
  let k := Weibull_beta d in
  let lam := npow (Weibull_theta d) (nlit 1 / Weibull_beta d) in
  S_weibull_min_scale k lam.

(** _compound_gamma.py:7-8 compound_gamma_pdf; [beta] is scipy.special.beta.
    [- a - b] is written [0 - a - b]: NUMERIC has no unary minus. *)
Definition compound_gamma_pdf (beta : A -> A -> A) (x a b q : A) : A :=
  npow (x / q) (a - nlit 1) * npow (nlit 1 + (x / q)) (nlit 0 - a - b) / (q * beta a b).

(** _beta_geometric.py:9-15 beta_geometric_pmf (after broadcasting, which
    [Model/NdArray.v] deals with) *)
Definition beta_geometric_pmf (beta : A -> A -> A) (x a b : A) (one_start : bool) : A :=
  let x := if one_start then x else x + nlit 1 in
  beta (a + nlit 1) (x + b) / beta a b.

End Frozen.
Arguments frozen : clear implicits.
