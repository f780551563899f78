(** Which parameter of the result is computed from which arguments, and what it means that a
    missing value (NaN, NULL) is not lost.  Arguments are listed as they are documented:
    keyword arguments under their name, attributes of the prior / distribution as
    "prior.name"; for the operators, "self.name" and "other". *)

From Coq Require Import ZArith Bool String.
From Flocq Require Import Core BinarySingleNaN.
From Verif Require Import Model.Num Model.Py Model.Table Model.Float64.
From Coq Require Import List.
Import ListNotations.
Open Scope string_scope.
Open Scope list_scope.

Record flow := mkFlow
  { f_fn : fn;
    f_arguments : list string;
    f_result : list (string * list string) (* a parameter, and the arguments that enter its formula *) }.

Definition flows : list flow :=
[ mkFlow F_binomial_beta ["n"; "x"; "prior.alpha"; "prior.beta"]
    [("alpha", ["prior.alpha"; "x"]); ("beta", ["prior.beta"; "n"; "x"])];
  mkFlow F_binomial_beta_predictive ["n"; "prior.alpha"; "prior.beta"]
    [("n", ["n"]); ("alpha", ["prior.alpha"]); ("beta", ["prior.beta"])];
  mkFlow F_bernoulli_beta ["x"; "prior.alpha"; "prior.beta"]
    [("alpha", ["prior.alpha"; "x"]); ("beta", ["prior.beta"; "x"])];
  mkFlow F_bernoulli_beta_predictive ["prior.alpha"; "prior.beta"]
    [("n", []); ("alpha", ["prior.alpha"]); ("beta", ["prior.beta"])];
  mkFlow F_negative_binomial_beta ["r"; "n"; "x"; "prior.alpha"; "prior.beta"]
    [("alpha", ["prior.alpha"; "r"; "n"]); ("beta", ["prior.beta"; "x"])];
  mkFlow F_negative_binomial_beta_predictive ["r"; "prior.alpha"; "prior.beta"]
    [("n", ["r"]); ("alpha", ["prior.alpha"]); ("beta", ["prior.beta"])];
  mkFlow F_hypergeometric_beta_binomial ["x_total"; "n"; "prior.n"; "prior.alpha"; "prior.beta"]
    [("n", ["prior.n"]); ("alpha", ["prior.alpha"; "x_total"]); ("beta", ["prior.beta"; "prior.n"; "x_total"])];
  mkFlow (F_geometric_beta true) ["x_total"; "n"; "prior.alpha"; "prior.beta"]
    [("alpha", ["prior.alpha"; "n"]); ("beta", ["prior.beta"; "x_total"; "n"])];
  mkFlow (F_geometric_beta false) ["x_total"; "n"; "prior.alpha"; "prior.beta"]
    [("alpha", ["prior.alpha"; "n"]); ("beta", ["prior.beta"; "x_total"])];
  mkFlow (F_geometric_beta_predictive true) ["prior.alpha"; "prior.beta"]
    [("alpha", ["prior.alpha"]); ("beta", ["prior.beta"])];
  mkFlow (F_geometric_beta_predictive false) ["prior.alpha"; "prior.beta"]
    [("alpha", ["prior.alpha"]); ("beta", ["prior.beta"])];
  mkFlow F_poisson_gamma ["x_total"; "n"; "prior.alpha"; "prior.beta"]
    [("alpha", ["prior.alpha"; "x_total"]); ("beta", ["prior.beta"; "n"])];
  mkFlow F_poisson_gamma_predictive ["prior.alpha"; "prior.beta"; "n"]
    [("n", ["n"; "prior.alpha"]); ("p", ["prior.beta"])];
  mkFlow F_exponential_gamma ["x_total"; "n"; "prior.alpha"; "prior.beta"]
    [("alpha", ["prior.alpha"; "x_total"]); ("beta", ["prior.beta"; "n"])];
  mkFlow F_exponential_gamma_predictive ["prior.alpha"; "prior.beta"]
    [("alpha", ["prior.beta"]); ("lam", ["prior.alpha"])];
  mkFlow F_gamma_known_shape ["x_total"; "n"; "alpha"; "prior.alpha"; "prior.beta"]
    [("alpha", ["prior.alpha"; "n"; "alpha"]); ("beta", ["prior.beta"; "x_total"])];
  mkFlow F_gamma_known_shape_predictive ["prior.alpha"; "prior.beta"; "alpha"]
    [("alpha", ["alpha"]); ("beta", ["prior.alpha"]); ("lam", ["prior.beta"])];
  mkFlow F_inverse_gamma_known_rate ["reciprocal_x_total"; "n"; "alpha"; "prior.alpha"; "prior.beta"]
    [("alpha", ["prior.alpha"; "n"; "alpha"]); ("beta", ["prior.beta"; "reciprocal_x_total"])];
  mkFlow F_normal_known_variance ["x_total"; "n"; "var"; "prior.mu"; "prior.sigma"]
    [("mu", ["prior.mu"; "prior.sigma"; "x_total"; "n"; "var"]); ("sigma", ["prior.sigma"; "n"; "var"])];
  mkFlow F_normal_known_variance_predictive ["var"; "prior.mu"; "prior.sigma"]
    [("mu", ["prior.mu"]); ("sigma", ["prior.sigma"; "var"])];
  mkFlow F_normal_known_precision ["x_total"; "n"; "precision"; "prior.mu"; "prior.sigma"]
    [("mu", ["prior.mu"; "prior.sigma"; "x_total"; "n"; "precision"]); ("sigma", ["prior.sigma"; "n"; "precision"])];
  mkFlow F_normal_known_precision_predictive ["precision"; "prior.mu"; "prior.sigma"]
    [("mu", ["prior.mu"]); ("sigma", ["prior.sigma"; "precision"])];
  mkFlow F_normal_known_mean_ig ["x_total"; "x2_total"; "n"; "mu"; "prior.alpha"; "prior.beta"]
    [("alpha", ["prior.alpha"; "n"]); ("beta", ["prior.beta"; "x_total"; "x2_total"; "n"; "mu"])];
  mkFlow F_normal_known_mean_sics ["x_total"; "x2_total"; "n"; "mu"; "prior.nu"; "prior.sigma2"]
    [("nu", ["prior.nu"; "n"]); ("sigma2", ["prior.nu"; "prior.sigma2"; "x_total"; "x2_total"; "n"; "mu"])];
  mkFlow F_normal_known_mean_predictive_ig ["mu"; "prior.alpha"; "prior.beta"]
    [("mu", ["mu"]); ("sigma", ["prior.alpha"; "prior.beta"]); ("nu", ["prior.alpha"])];
  mkFlow F_normal_known_mean_predictive_sics ["mu"; "prior.nu"; "prior.sigma2"]
    [("mu", ["mu"]); ("sigma", ["prior.nu"; "prior.sigma2"]); ("nu", ["prior.nu"])];
  mkFlow F_normal_nig ["x_total"; "x2_total"; "n"; "prior.mu"; "prior.alpha"; "prior.beta"; "prior.nu"]
    [("mu", ["prior.mu"; "prior.nu"; "x_total"; "n"]); ("alpha", ["prior.alpha"; "n"]);
     ("beta", ["prior.beta"; "prior.mu"; "prior.nu"; "x_total"; "x2_total"; "n"]); ("nu", ["prior.nu"; "n"])];
  mkFlow F_normal_ng ["x_total"; "x2_total"; "n"; "prior.mu"; "prior.lam"; "prior.alpha"; "prior.beta"]
    [("mu", ["prior.mu"; "prior.lam"; "x_total"; "n"]); ("lam", ["prior.lam"; "n"]); ("alpha", ["prior.alpha"; "n"]);
     ("beta", ["prior.beta"; "prior.mu"; "prior.lam"; "x_total"; "x2_total"; "n"])];
  mkFlow F_normal_predictive_nig ["prior.mu"; "prior.alpha"; "prior.beta"; "prior.nu"]
    [("mu", ["prior.mu"]); ("sigma", ["prior.alpha"; "prior.beta"; "prior.nu"]); ("nu", ["prior.alpha"])];
  mkFlow F_normal_predictive_ng ["prior.mu"; "prior.lam"; "prior.alpha"; "prior.beta"]
    [("mu", ["prior.mu"]); ("sigma", ["prior.alpha"; "prior.beta"; "prior.lam"]); ("nu", ["prior.alpha"])];
  mkFlow F_log_normal_nig ["ln_x_total"; "ln_x2_total"; "n"; "prior.mu"; "prior.alpha"; "prior.beta"; "prior.nu"]
    [("mu", ["prior.mu"; "prior.nu"; "ln_x_total"; "n"]); ("alpha", ["prior.alpha"; "n"]);
     ("beta", ["prior.beta"; "prior.mu"; "prior.nu"; "ln_x_total"; "ln_x2_total"; "n"]); ("nu", ["prior.nu"; "n"])];
  mkFlow F_log_normal_ng ["ln_x_total"; "ln_x2_total"; "n"; "prior.mu"; "prior.lam"; "prior.alpha"; "prior.beta"]
    [("mu", ["prior.mu"; "prior.lam"; "ln_x_total"; "n"]); ("lam", ["prior.lam"; "n"]); ("alpha", ["prior.alpha"; "n"]);
     ("beta", ["prior.beta"; "prior.mu"; "prior.lam"; "ln_x_total"; "ln_x2_total"; "n"])];
  mkFlow F_uniform_pareto ["x_max"; "n"; "prior.x_m"; "prior.alpha"]
    [("x_m", ["prior.x_m"; "x_max"]); ("alpha", ["prior.alpha"; "n"])];
  mkFlow F_pareto_gamma ["n"; "ln_x_total"; "x_m"; "prior.alpha"; "prior.beta"]
    [("alpha", ["prior.alpha"; "n"]); ("beta", ["prior.beta"; "ln_x_total"; "n"; "x_m"])];
  mkFlow F_gamma ["x_total"; "x_prod"; "n"; "prior.p"; "prior.q"; "prior.r"; "prior.s"]
    [("p", ["prior.p"; "x_prod"]); ("q", ["prior.q"; "x_total"]); ("r", ["prior.r"; "n"]); ("s", ["prior.s"; "n"])];
  mkFlow F_gamma_known_rate ["x_prod"; "n"; "beta"; "prior.a"; "prior.b"; "prior.c"]
    [("a", ["prior.a"; "x_prod"]); ("b", ["prior.b"; "n"]); ("c", ["prior.c"; "n"])];
  mkFlow F_beta ["x_prod"; "one_minus_x_prod"; "n"; "prior.p"; "prior.q"; "prior.k"]
    [("p", ["prior.p"; "x_prod"]); ("q", ["prior.q"; "one_minus_x_prod"]); ("k", ["prior.k"; "n"])];
  (* a is kappa times a sine total only: the cosines do not enter (C16) *)
  mkFlow F_von_mises_known_concentration ["cos_total"; "sin_total"; "n"; "kappa"; "prior.a"; "prior.b"]
    [("a", ["kappa"; "prior.a"; "prior.b"; "sin_total"]); ("b", ["prior.a"; "prior.b"; "sin_total"; "cos_total"])];
  mkFlow F_von_mises_known_direction ["centered_cos_total"; "n"; "prior.c"; "prior.r"]
    [("c", ["prior.c"; "n"]); ("r", ["prior.r"; "centered_cos_total"])];
  mkFlow F_weibull ["n"; "x_beta_total"; "prior.alpha"; "prior.beta"]
    [("alpha", ["prior.alpha"; "n"]); ("beta", ["prior.beta"; "x_beta_total"])];
  mkFlow F_Beta_from_mean ["mean"; "alpha"] [("alpha", ["alpha"]); ("beta", ["mean"; "alpha"])];
  mkFlow F_Beta_from_successes_and_failures ["successes"; "failures"] [("alpha", ["successes"]); ("beta", ["failures"])];
  mkFlow F_Gamma_from_occurrences_in_intervals ["occurrences"; "intervals"]
    [("alpha", ["occurrences"]); ("beta", ["intervals"])];
  mkFlow F_Normal_from_mean_and_variance ["mean"; "variance"] [("mu", ["mean"]); ("sigma", ["variance"])];
  mkFlow F_Normal_from_mean_and_precision ["mean"; "precision"] [("mu", ["mean"]); ("sigma", ["precision"])];
  mkFlow F_sics_from_inverse_gamma ["prior.alpha"; "prior.beta"]
    [("nu", ["prior.alpha"]); ("sigma2", ["prior.alpha"; "prior.beta"])];
  mkFlow F_sics_to_inverse_gamma ["self.nu"; "self.sigma2"] [("alpha", ["self.nu"]); ("beta", ["self.nu"; "self.sigma2"])];
  mkFlow F_Exponential_mul ["self.lam"; "other"] [("alpha", ["other"]); ("beta", ["self.lam"])];
  mkFlow F_Gamma_mul ["self.alpha"; "self.beta"; "other"] [("alpha", ["self.alpha"; "other"]); ("beta", ["self.beta"])];
  mkFlow F_NegativeBinomial_mul ["self.n"; "self.p"; "other"] [("n", ["self.n"; "other"]); ("p", ["self.p"])];
  mkFlow F_Poisson_mul ["self.lam"; "other"] [("lam", ["self.lam"; "other"])];
  mkFlow F_Poisson_add ["self.lam"; "other.lam"] [("lam", ["self.lam"; "other.lam"])];
  mkFlow F_Normal_mul ["self.mu"; "self.sigma"; "other"] [("mu", ["self.mu"; "other"]); ("sigma", ["self.sigma"; "other"])] ].

(** The arguments that enter no parameter at all. *)
Definition unused : list (fn * string) :=
[ (F_hypergeometric_beta_binomial, "n"); (F_gamma_known_rate, "beta"); (F_von_mises_known_concentration, "n") ].

(** A kind of missing value that no operation loses: NaN in floating point, NULL in SQL,
    [None] in the lifting of any number type to one with missing values. *)
Record absorbing {A} (NA : Num A) (U : Ufuncs A) (missing : A -> Prop) : Prop := {
  a_add : forall x y, missing x \/ missing y -> missing (nadd x y);
  a_sub : forall x y, missing x \/ missing y -> missing (nsub x y);
  a_mul : forall x y, missing x \/ missing y -> missing (nmul x y);
  a_div : forall x y, missing x \/ missing y -> missing (ndiv x y);
  a_sq : forall x, missing x -> missing (nsq x);
  a_sqrt : forall x, missing x -> missing (nsqrt x);
  a_rsqrt : forall x, missing x -> missing (nrsqrt x);
  a_ln : forall x, missing x -> missing (u_ln U x);
  a_max : forall x y, missing x \/ missing y -> missing (u_max U x y);
  a_sin : forall x, missing x -> missing (u_sin U x);
  a_cos : forall x, missing x -> missing (u_cos U x);
  a_arctan2 : forall x y, missing x \/ missing y -> missing (u_arctan2 U x y) }.

(** Numbers of type [A] or NULL, as SQL, pandas and polars columns have them. *)
Definition lift1 {A} (f : A -> A) (x : option A) : option A := option_map f x.
Definition lift2 {A} (f : A -> A -> A) (x y : option A) : option A :=
  match x, y with Some a, Some b => Some (f a b) | _, _ => None end.
Definition NumNullable {A} (NA : Num A) : Num (option A) := {|
  nadd := lift2 nadd; nsub := lift2 nsub; nmul := lift2 nmul; ndiv := lift2 ndiv;
  nlit := fun z => Some (nlit z); nhalf := Some nhalf;
  nsq := lift1 nsq; nsqrt := lift1 nsqrt; nrsqrt := lift1 nrsqrt; npow := lift2 npow |}.
Definition Ufuncs_nullable {A} (U : Ufuncs A) : Ufuncs (option A) :=
  mkUfuncs (lift1 (u_ln U)) (lift2 (u_max U)) (lift1 (u_sin U)) (lift1 (u_cos U)) (lift2 (u_arctan2 U)).

Definition nan (x : f64) : Prop := is_nan x = true.

(** What C and numpy promise of the functions the models use: a NaN argument gives NaN
    (for [pow], only with the exponents 2, 1/2 and -1/2: pow(NaN, 0) is 1). *)
Record propagates_nan (L : Libm) : Prop := {
  p_sq : nan (lm_pow L B754_nan (f64_of 2 0));
  p_sqrt : nan (lm_pow L B754_nan (f64_of 1 (-1)));
  p_rsqrt : nan (lm_pow L B754_nan (f64_of (-1) (-1)));
  p_ln : nan (lm_ln L B754_nan);
  p_max : forall x, nan (lm_max L B754_nan x) /\ nan (lm_max L x B754_nan);
  p_sin : nan (lm_sin L B754_nan);
  p_cos : nan (lm_cos L B754_nan);
  p_arctan2 : forall x, nan (lm_arctan2 L B754_nan x) /\ nan (lm_arctan2 L x B754_nan) }.

(** Python's [max(x, y)]: the second argument if it is greater, else the first. *)
Definition builtin_max (x y : f64) : f64 := match Bcompare y x with Some Gt => y | _ => x end.
