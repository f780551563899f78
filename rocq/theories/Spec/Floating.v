(** What a floating-point result means, in terms of real numbers only. *)

From Coq Require Import ZArith Bool Reals.
From Flocq Require Import Core BinarySingleNaN.
From Verif Require Import Spec.Bayes.
From Verif Require Import Model.Num Model.Py Model.Table Model.Symbolic Model.PyNum Model.Float64.
From Coq Require Import List.
Import ListNotations.
Open Scope R_scope.
Open Scope bool_scope.

(** The real number a finite float stands for. *)
Definition value (x : f64) : R := B2R x.
Definition finite (x : f64) : Prop := is_finite x = true.

(** Numbers with a 53 bit significand and an exponent in range. *)
Definition representable (x : R) : Prop :=
  exists m e : Z, x = IZR m * powerRZ 2 e /\ (Z.abs m < 2 ^ 53)%Z /\ (-1074 <= e <= 971)%Z.

(** One rounding changes a number by a factor of at most [1 - u] or [1 / (1 - u)];
    [within k v x]: [v] differs from [x] by at most [k] of them. *)
Definition u : R := / 2 ^ 53.
Definition within (k : nat) (v x : R) : Prop := (1 - u) ^ k * x <= v <= x / (1 - u) ^ k.

(** Zero, or far from overflow and underflow. *)
Definition tame (b : nat) (x : R) : Prop := x = 0 \/ / 2 ^ b <= x <= 2 ^ b.

(** Everything computed on the way to [e], [e] included. *)
Fixpoint intermediates (e : expr) : list expr :=
  e :: match e with
       | EVar _ | ELit _ | EHalf => []
       | EAdd a b | ESub a b | EMul a b | EDiv a b | EPow a b | EMax a b | EArctan2 a b =>
           intermediates a ++ intermediates b
       | ESq a | ESqrt a | ERsqrt a | ELn a | ESin a | ECos a => intermediates a
       end.

(** Only [+ - * /], literals and maximum. *)
Fixpoint plain (e : expr) : bool :=
  match e with
  | EVar _ | EHalf => true
  | ELit z => (Z.abs z <=? 2 ^ 53)%Z
  | EAdd a b | ESub a b | EMul a b | EDiv a b | EMax a b => plain a && plain b
  | _ => false
  end.

(** No subtraction except of two inputs, so no cancellation of rounded numbers. *)
Definition input (e : expr) : bool :=
  match e with EVar _ => true | ELit z => ((0 <=? z)%Z && (z <=? 2 ^ 53)%Z)%bool | _ => false end.
Fixpoint stable (e : expr) : bool :=
  match e with
  | EVar _ | EHalf => true
  | ELit z => ((0 <=? z)%Z && (z <=? 2 ^ 53)%Z)%bool
  | EAdd a b | EMul a b | EDiv a b | EMax a b => stable a && stable b
  | ESub a b => input a && input b
  | ESq a | ESqrt a | ERsqrt a => stable a
  | _ => false
  end.

(** Number of roundings that can pile up in [e]; a power counts for two. *)
Fixpoint roundings (e : expr) : nat :=
  match e with
  | EAdd a b => S (Nat.max (roundings a) (roundings b))
  | ESub a b | EMul a b | EDiv a b => S (roundings a + roundings b)
  | EMax a b => Nat.max (roundings a) (roundings b)
  | ESq a => 2 + (roundings a + roundings a)
  | ESqrt a | ERsqrt a => 2 + roundings a
  | _ => 0
  end.

(** No division by zero on the way. *)
Definition no_zero_division (val : expr -> R) (e : expr) : Prop :=
  (forall a b, In (EDiv a b) (intermediates e) -> val b <> 0) /\
  (forall a, In (ERsqrt a) (intermediates e) -> val a <> 0).

(** np.maximum returns the larger of two numbers. *)
Definition max_correct (L : Libm) : Prop :=
  forall x y, finite x -> finite y -> finite (lm_max L x y) /\ value (lm_max L x y) = Rmax (value x) (value y).

(** The library's [x ** 2], [x ** 0.5], [x ** -0.5] are off by at most two
    roundings where nothing under- or overflows (glibc documents less than one). *)
Definition pow_accurate (L : Libm) : Prop :=
  forall x, finite x -> 0 <= value x ->
  (tame 1010 (value x ^ 2) ->
     finite (lm_pow L x (f64_of 2 0)) /\ within 2 (value (lm_pow L x (f64_of 2 0))) (value x ^ 2)) /\
  (tame 1010 (value x) ->
     finite (lm_pow L x (f64_of 1 (-1))) /\ within 2 (value (lm_pow L x (f64_of 1 (-1)))) (sqrt (value x))) /\
  (tame 1010 (value x) -> value x <> 0 ->
     finite (lm_pow L x (f64_of (-1) (-1))) /\ within 2 (value (lm_pow L x (f64_of (-1) (-1)))) (/ sqrt (value x))).

(** The arguments of a function as columns 0, 1, 2, ... *)
Definition columns (n : nat) : list expr := map EVar (seq 0 n).
Definition arguments (args : list f64) (i : nat) : R := value (nth i args (B754_zero false)).
(** The exact value of a formula at float arguments. *)
Definition exact (arctan2 : R -> R -> R) (args : list f64) (e : expr) : R :=
  eval (Ufuncs_R arctan2) (arguments args) e.

(** Functions that only add, subtract and multiply counts and parameters. *)
Definition counting_fns : list fn :=
  [F_binomial_beta; F_binomial_beta_predictive; F_bernoulli_beta; F_bernoulli_beta_predictive;
   F_negative_binomial_beta; F_negative_binomial_beta_predictive; F_hypergeometric_beta_binomial;
   F_geometric_beta true; F_geometric_beta false; F_geometric_beta_predictive true; F_geometric_beta_predictive false;
   F_poisson_gamma; F_exponential_gamma; F_exponential_gamma_predictive;
   F_gamma_known_shape; F_gamma_known_shape_predictive; F_inverse_gamma_known_rate;
   F_uniform_pareto; F_gamma; F_gamma_known_rate; F_beta; F_von_mises_known_direction; F_weibull;
   F_Beta_from_successes_and_failures; F_Gamma_from_occurrences_in_intervals;
   F_Gamma_mul; F_NegativeBinomial_mul; F_Poisson_mul; F_Poisson_add].

(** A whole number up to 2^26 (67 million). *)
Definition count (x : f64) : Prop := finite x /\ exists z : Z, (0 <= z <= 2 ^ 26)%Z /\ value x = IZR z.

(** Functions whose formulas never subtract rounded numbers. *)
Definition stable_fns : list fn :=
  [F_binomial_beta; F_binomial_beta_predictive; F_bernoulli_beta; F_bernoulli_beta_predictive;
   F_negative_binomial_beta; F_negative_binomial_beta_predictive; F_hypergeometric_beta_binomial;
   F_geometric_beta false; F_geometric_beta_predictive true; F_geometric_beta_predictive false;
   F_poisson_gamma; F_poisson_gamma_predictive; F_exponential_gamma; F_exponential_gamma_predictive;
   F_gamma_known_shape; F_gamma_known_shape_predictive; F_inverse_gamma_known_rate;
   F_normal_known_variance; F_normal_known_variance_predictive; F_normal_known_precision; F_normal_known_precision_predictive;
   F_normal_known_mean_predictive_ig; F_normal_known_mean_predictive_sics; F_normal_predictive_nig; F_normal_predictive_ng;
   F_uniform_pareto; F_gamma; F_gamma_known_rate; F_beta; F_von_mises_known_direction; F_weibull;
   F_Beta_from_successes_and_failures; F_Gamma_from_occurrences_in_intervals;
   F_Normal_from_mean_and_variance; F_Normal_from_mean_and_precision; F_sics_from_inverse_gamma; F_sics_to_inverse_gamma;
   F_Exponential_mul; F_Gamma_mul; F_NegativeBinomial_mul; F_Poisson_mul; F_Poisson_add; F_Normal_mul].

(** No more successes than trials. *)
Definition ordered (f : fn) (args : list R) : Prop :=
  match f, args with
  | F_binomial_beta, [n; x; _; _] => x <= n
  | F_bernoulli_beta, [x; _; _] => x <= 1
  | F_hypergeometric_beta_binomial, [x; _; N; _; _] => x <= N
  | _, _ => True
  end.

(** Whole numbers. *)
Definition whole (x : f64) : Prop := finite x /\ exists z : Z, value x = IZR z /\ (0 <= z)%Z.

(** The sums of a sequence of batches, in exact arithmetic. *)
Definition sum1 (bs : list (f64 * f64)) : R := sumR (map (fun b => value (fst b)) bs).
Definition sum2 (bs : list (f64 * f64)) : R := sumR (map (fun b => value (snd b)) bs).

(** numpy computes [x ** 2] as [x * x]. *)
Definition squares_by_product (L : Libm) : Prop := forall x, lm_pow L x (f64_of 2 0) = Bmult mode_NE x x.

(** normal_known_mean, InverseGamma(1, 2^-10), mean 134217731, one observation 134217730 *)
Definition known_mean_data : list f64 :=
  [f64_of 134217730 0; f64_of (134217730 * 134217730) 0; f64_of 1 0; f64_of 134217731 0; f64_of 1 0; f64_of 1 (-10)].
(** normal, NormalInverseGamma(mu = 48, alpha = 1, beta = 2^-40, nu = 0.3), observations 48, 48, 48 *)
Definition normal_data : list f64 :=
  [f64_of 144 0; f64_of 6912 0; f64_of 3 0; f64_of 48 0; f64_of 1 0; f64_of 1 (-40); f64_of 5404319552844595 (-54)].
