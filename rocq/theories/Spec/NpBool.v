(** Which arguments of a function may be numpy booleans. *)

From Coq Require Import ZArith List Reals.
From Verif Require Import Model.Table Model.IntTypes Model.NpBool Spec.IntTypes.
Import ListNotations.
Local Open Scope nat_scope.

(** The result with its numbers, whatever their types *)
Definition plain_numbers (r : Model.Py.res (list bv)) : Model.Py.res (list R) := Model.Py.rmap (map bvalue) r.

(** The places (in the order of Model/Table.v, from 0) that the formula of a function adds or
    subtracts with nothing but products in between, and, alone, the places that it squares. *)
Definition clashes (f : fn) : list (list nat) :=
  match f with
  | F_binomial_beta => [[0; 1]; [1; 2]]           (* n - x, alpha + x *)
  | F_bernoulli_beta => [[0; 1]]                  (* alpha + x *)
  | F_negative_binomial_beta => [[2; 4]; [0; 1; 3]] (* beta + x, alpha + r * n *)
  | F_hypergeometric_beta_binomial => [[0; 2]; [0; 3]] (* N - x, alpha + x *)
  | F_geometric_beta _ => [[0; 3]; [1; 2]]        (* beta + x_total, alpha + n *)
  | F_poisson_gamma | F_exponential_gamma | F_weibull => [[0; 2]; [1; 3]] (* alpha + x_total, beta + n and so on *)
  | F_gamma_known_shape | F_inverse_gamma_known_rate => [[0; 4]; [1; 2; 3]] (* beta + x_total, alpha + n * alpha *)
  | F_normal_known_variance | F_normal_known_precision => [[4]]           (* sigma ** 2 *)
  | F_normal_known_variance_predictive | F_normal_known_precision_predictive => [[2]]
  | F_normal_known_mean_ig | F_normal_known_mean_sics => [[3]]            (* mu ** 2 *)
  | F_normal_nig | F_log_normal_nig => [[3]; [2; 6]]                      (* mu ** 2, nu + n *)
  | F_normal_ng | F_log_normal_ng => [[3]; [2; 4]]                        (* mu ** 2, lam + n *)
  | F_uniform_pareto => [[1; 3]]                                          (* alpha + n *)
  | F_pareto_gamma => [[0; 3]; [1; 4]]                                    (* alpha + n, beta + ln_x_total *)
  | F_gamma => [[0; 4]; [2; 5]; [2; 6]]                                   (* q + x_total, r + n, s + n *)
  | F_gamma_known_rate => [[1; 4]; [1; 5]]                                (* b + n, c + n *)
  | F_beta => [[2; 5]]                                                    (* k + n *)
  | F_von_mises_known_direction => [[0; 3]; [1; 2]]                       (* r + .., c + n *)
  | F_Poisson_add => [[0; 1]]                                             (* lam + other *)
  | F_Normal_mul => [[1]]                                                 (* sigma ** 2 *)
  | _ => []
  end.
(** Of the places of each clash one at least holds no numpy boolean. *)
Definition no_clash (f : fn) (args : list bv) : Prop :=
  forall s, In s (clashes f) -> exists i v, In i s /\ nth_error args i = Some (Other v).

(** The numbers that are no booleans are as in C97. *)
Definition others_moderate (w : width) (f : fn) (args : list bv) : Prop :=
  forall v, In (Other v) args -> moderate w (limit w f) v.

(** How many of the arguments are data; the fields of the prior follow. *)
Definition data_count (f : fn) : option nat :=
  match f with
  | F_bernoulli_beta => Some 1
  | F_binomial_beta | F_hypergeometric_beta_binomial | F_geometric_beta _ | F_poisson_gamma | F_exponential_gamma
  | F_uniform_pareto | F_von_mises_known_direction | F_weibull => Some 2
  | F_negative_binomial_beta | F_gamma_known_shape | F_inverse_gamma_known_rate | F_normal_known_variance | F_normal_known_precision
  | F_pareto_gamma | F_normal_nig | F_normal_ng | F_log_normal_nig | F_log_normal_ng | F_gamma | F_gamma_known_rate | F_beta
  | F_von_mises_known_concentration | F_normal_known_mean_ig | F_normal_known_mean_sics => Some 3
  | _ => None
  end%nat.
(** No boolean from place [k] on *)
Definition prior_of_numbers (k : nat) (args : list bv) : Prop :=
  forall i b, k <= i -> nth_error args i <> Some (NBool b).
