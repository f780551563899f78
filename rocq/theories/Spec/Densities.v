(** The densities and mass functions scipy.stats documents for the frozen
    distributions the library creates (trusted: scipy computes these functions).
    Written from scipy's reference documentation, not from the library's code. *)

From Coq Require Import Reals ZArith Lra List.
From Verif Require Import Model.Num Model.Dists Model.ScipyDist Spec.Special.
Open Scope R_scope.

(** [if] on a real comparison *)
Definition Rif (c : bool) (x : R) : R := if c then x else 0.
Definition ltb (x y : R) : bool := if Rlt_dec x y then true else false.
Definition leb (x y : R) : bool := if Rle_dec x y then true else false.

(** The natural number a real count stands for. *)
Definition Rnat (n : R) : nat := Z.to_nat (Int_part n).

(** Standardised densities (loc 0, scale 1).  On the end points of the support,
    where scipy's value is a limit or infinite, [beta], [gamma], ... are given
    the value 0; no statement depends on these null sets. *)
Definition std_beta (a b x : R) : R :=
  Rif (ltb 0 x && ltb x 1) (Rpower x (a - 1) * Rpower (1 - x) (b - 1) / Beta_fun a b).
Definition std_gamma (a x : R) : R :=
  Rif (ltb 0 x) (Rpower x (a - 1) * exp (- x) / Gamma_fun a).
Definition std_expon (x : R) : R := Rif (leb 0 x) (exp (- x)).
Definition std_norm (x : R) : R := exp (- x ^ 2 / 2) / sqrt (2 * PI).
Definition std_uniform (x : R) : R := Rif (leb 0 x && leb x 1) 1.
Definition std_pareto (b x : R) : R := Rif (leb 1 x) (b / Rpower x (b + 1)).
Definition std_invgamma (a x : R) : R :=
  Rif (ltb 0 x) (Rpower x (- a - 1) / Gamma_fun a * exp (- (1 / x))).
Definition std_t (df x : R) : R :=
  Gamma_fun ((df + 1) / 2) / (sqrt (PI * df) * Gamma_fun (df / 2))
  * Rpower (1 + x ^ 2 / df) (- ((df + 1) / 2)).
Definition std_lomax (c x : R) : R := Rif (leb 0 x) (c / Rpower (1 + x) (c + 1)).
Definition std_vonmises (kappa x : R) : R := exp (kappa * cos x) / (2 * PI * Bessel_i0 kappa).
Definition std_lognorm (s x : R) : R :=
  Rif (ltb 0 x) (/ (s * x * sqrt (2 * PI)) * exp (- (ln x) ^ 2 / (2 * s ^ 2))).
Definition std_weibull_min (c x : R) : R :=
  Rif (ltb 0 x) (c * Rpower x (c - 1) * exp (- Rpower x c)).

(** scipy: "pdf(x, loc, scale) is identically equivalent to pdf(y) / scale with
    y = (x - loc) / scale". *)
Definition locscale (f : R -> R) (loc scale x : R) : R := f ((x - loc) / scale) / scale.

(** Density of a frozen continuous distribution ([.pdf]). *)
Definition pdf (d : frozen R) (x : R) : R :=
  match d with
  | S_beta a b => std_beta a b x
  | S_expon_scale s => locscale std_expon 0 s x
  | S_gamma_scale a s => locscale (std_gamma a) 0 s x
  | S_norm m s => locscale std_norm m s x
  | S_uniform l s => locscale std_uniform l s x
  | S_pareto_scale b s => locscale (std_pareto b) 0 s x
  | S_invgamma_scale a s => locscale (std_invgamma a) 0 s x
  | S_t df m s => locscale (std_t df) m s x
  | S_lomax_scale c s => locscale (std_lomax c) 0 s x
  | S_vonmises_loc k l => locscale (std_vonmises k) l 1 x
  | S_lognorm_loc s l => locscale (std_lognorm s) l 1 x
  | S_weibull_min_scale c s => locscale (std_weibull_min c) 0 s x
  | C_compound_gamma a b q => compound_gamma_pdf Beta_fun x a b q  (* the library's own code *)
  | _ => 0  (* discrete: scipy's object has no pdf *)
  end.

(** Mass function of a frozen discrete distribution ([.pmf]) at an integer. *)
Definition pmf (d : frozen R) (z : Z) : R :=
  let k := Z.to_nat z in
  match d with
  | S_binom n p =>
      if (Z.leb 0 z && Nat.leb k (Rnat n))%bool
      then choose n k * p ^ k * (1 - p) ^ (Rnat n - k) else 0
  | S_nbinom n p =>
      if Z.leb 0 z then rising n k / INR (fact k) * Rpower p n * (1 - p) ^ k else 0
  | S_hypergeom M n N =>
      if (Z.leb 0 z && Nat.leb k (Rnat n) && Nat.leb k (Rnat N)
          && Nat.leb (Rnat N - k) (Rnat M - Rnat n))%bool
      then choose n k * choose (M - n) (Rnat N - k) / choose M (Rnat N) else 0
  | S_poisson mu =>
      if Z.leb 0 z then exp (- mu) * mu ^ k / INR (fact k) else 0
  | S_betabinom n a b =>
      if (Z.leb 0 z && Nat.leb k (Rnat n))%bool
      then choose n k * Beta_fun (INR k + a) (n - INR k + b) / Beta_fun a b else 0
  | S_betanbinom n a b =>
      if Z.leb 0 z
      then choose (n + INR k - 1) k * Beta_fun (a + n) (b + INR k) / Beta_fun a b else 0
  | S_geom_loc p loc =>
      let y := (z - Int_part loc)%Z in
      if Z.leb 1 y then (1 - p) ^ (Z.to_nat y - 1) * p else 0
  | C_beta_geometric a b one_start =>
      beta_geometric_pmf Beta_fun (IZR z) a b one_start  (* the library's own code *)
  | _ => 0  (* continuous: scipy's object has no pmf *)
  end.
