(** Densities and mass functions of the plottable classes, in the parameters the
    docstrings name.  [p] is the value of a parameter, [b] of a flag. *)

From Coq Require Import Reals ZArith String.
From Verif Require Import Model.Num Model.Py Model.SliceModel Model.PlotModel Spec.Special Spec.Indexing.
From Coq Require Import List.
Import ListNotations.
Open Scope R_scope.

Definition values := string -> R.
Definition flags := string -> bool.

(** When it applies, and the density at a point *)
Record density := mkDensity { d_class : string; d_valid : values -> R -> Prop; d_value : values -> R -> R }.

Definition continuous_table : list density :=
[ mkDensity "Beta" (fun p x => 0 < x < 1)
    (fun p x => Rpower x (p "alpha" - 1) * Rpower (1 - x) (p "beta" - 1) / Beta_fun (p "alpha") (p "beta"));
  mkDensity "Gamma" (fun p x => 0 < p "beta" /\ 0 < x)
    (fun p x => Rpower (p "beta") (p "alpha") / Gamma_fun (p "alpha") * Rpower x (p "alpha" - 1) * exp (- (p "beta" * x)));
  mkDensity "InverseGamma" (fun p x => 0 < p "beta" /\ 0 < x)
    (fun p x => Rpower (p "beta") (p "alpha") / Gamma_fun (p "alpha") * Rpower (/ x) (p "alpha" + 1) * exp (- (p "beta" / x)));
  mkDensity "ScaledInverseChiSquared" (fun p x => 0 < p "nu" /\ 0 < p "sigma2" /\ 0 < x)
    (fun p x => Rpower (p "sigma2" * p "nu" / 2) (p "nu" / 2) / Gamma_fun (p "nu" / 2)
                * exp (- (p "nu" * p "sigma2" / (2 * x))) / Rpower x (1 + p "nu" / 2));
  mkDensity "Normal" (fun p x => 0 < p "sigma")
    (fun p x => / (p "sigma" * sqrt (2 * PI)) * exp (- (x - p "mu") ^ 2 / (2 * p "sigma" ^ 2)));
  mkDensity "Pareto" (fun p x => 0 < p "x_m" /\ p "x_m" <= x)
    (fun p x => p "alpha" * Rpower (p "x_m") (p "alpha") / Rpower x (p "alpha" + 1));
  mkDensity "StudentT" (fun p x => 0 < p "nu" /\ 0 < p "sigma")
    (fun p x => Gamma_fun ((p "nu" + 1) / 2) / (Gamma_fun (p "nu" / 2) * sqrt (PI * p "nu") * p "sigma")
                * Rpower (1 + ((x - p "mu") / p "sigma") ^ 2 / p "nu") (- ((p "nu" + 1) / 2)));
  mkDensity "Lomax" (fun p x => 0 < p "lam" /\ 0 <= x)
    (fun p x => p "alpha" / p "lam" * Rpower (1 + x / p "lam") (- (p "alpha" + 1)));
  mkDensity "CompoundGamma" (fun p x => 0 < p "lam" /\ 0 < x)
    (fun p x => Rpower (x / p "lam") (p "alpha" - 1) * Rpower (1 + x / p "lam") (- (p "alpha" + p "beta"))
                / (p "lam" * Beta_fun (p "alpha") (p "beta")));
  mkDensity "Weibull" (fun p x => 0 < p "beta" /\ 0 < p "theta" /\ 0 < x)
    (fun p x => p "beta" * Rpower x (p "beta" - 1) / p "theta" * exp (- (Rpower x (p "beta") / p "theta")));
  mkDensity "VonMises" (fun p x => True)
    (fun p x => exp (p "kappa" * cos (x - p "mu")) / (2 * PI * Bessel_i0 (p "kappa")));
  (* with lam the scale, high the width and mu the smallest value: C41 *)
  mkDensity "Exponential" (fun p x => 0 < p "lam" /\ 0 <= x) (fun p x => / p "lam" * exp (- (x / p "lam")));
  mkDensity "Uniform" (fun p x => 0 < p "high" /\ p "low" <= x <= p "low" + p "high") (fun p x => / p "high");
  mkDensity "LogNormal" (fun p x => 0 < p "sigma" /\ p "mu" < x)
    (fun p x => / (p "sigma" * (x - p "mu") * sqrt (2 * PI)) * exp (- (ln (x - p "mu")) ^ 2 / (2 * p "sigma" ^ 2)))
]%string.

(** [m_is p b k y]: outcome [k] has probability [y] *)
Record mass := mkMass { m_class : string; m_is : values -> flags -> nat -> R -> Prop }.

Definition discrete_table : list mass :=
[ mkMass "Binomial" (fun p b k y => forall n, p "n" = INR n -> (k <= n)%nat ->
    y = Binomial.C n k * p "p" ^ k * (1 - p "p") ^ (n - k));
  mkMass "Poisson" (fun p b k y => y = p "lam" ^ k * exp (- p "lam") / INR (fact k));
  mkMass "NegativeBinomial" (fun p b k y => 0 < p "n" ->
    y = Gamma_fun (p "n" + INR k) / (INR (fact k) * Gamma_fun (p "n")) * Rpower (p "p") (p "n") * (1 - p "p") ^ k);
  mkMass "Hypergeometric" (fun p b x y => forall N k n, p "N" = INR N -> p "k" = INR k -> p "n" = INR n ->
    (x <= k)%nat -> (x <= n)%nat -> (k <= N)%nat -> (n - x <= N - k)%nat ->
    y = Binomial.C k x * Binomial.C (N - k) (n - x) / Binomial.C N n);
  mkMass "BetaBinomial" (fun p b k y => forall n, p "n" = INR n -> (k <= n)%nat ->
    y = choose (p "n") k * Beta_fun (INR k + p "alpha") (p "n" - INR k + p "beta") / Beta_fun (p "alpha") (p "beta"));
  mkMass "BetaNegativeBinomial" (fun p b k y =>
    y = rising (p "n") k / INR (fact k) * Beta_fun (p "alpha" + p "n") (p "beta" + INR k) / Beta_fun (p "alpha") (p "beta"));
  mkMass "Geometric" (fun p b x y => forall failures, x = (failures + if b "one_start" then 1 else 0)%nat ->
    y = (1 - p "p") ^ failures * p "p");
  (* with one failure too many: C22 *)
  mkMass "BetaGeometric" (fun p b x y => forall failures, x = (failures + if b "one_start" then 1 else 0)%nat ->
    y = Beta_fun (p "alpha" + 1) (INR (failures + 1) + p "beta") / Beta_fun (p "alpha") (p "beta"))
]%string.

(** [p] and [b] are the parameters of member [j] of a family *)
Definition parameters (fields : list (string * param R)) (j : nat) (p : values) (b : flags) : Prop :=
  forall name v, In (name, v) fields ->
  match v with PFlag f => b name = f | _ => member 0 j v = Some (p name) end.
