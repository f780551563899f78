(** Which arguments each parameter of a result depends on, and the shape numpy
    broadcasting gives to a set of arrays. *)

From Coq Require Import List.
From Verif Require Import Model.Table.
Import ListNotations.

(** For every field of the result, the positions (0-based, numbers first, then
    the fields of the prior) of the arguments it is computed from. *)
Definition deps (f : fn) : list (list nat) :=
  match f with
  | F_binomial_beta => [[1; 2]; [0; 1; 3]]
  | F_binomial_beta_predictive => [[0]; [1]; [2]]
  | F_bernoulli_beta => [[0; 1]; [0; 2]]
  | F_bernoulli_beta_predictive => [[]; [0]; [1]]
  | F_negative_binomial_beta => [[0; 1; 3]; [2; 4]]
  | F_negative_binomial_beta_predictive => [[0]; [1]; [2]]
  | F_hypergeometric_beta_binomial => [[2]; [0; 3]; [0; 2; 4]]
  | F_geometric_beta one_start => [[1; 2]; if one_start then [0; 1; 3] else [0; 3]]
  | F_geometric_beta_predictive _ => [[0]; [1]]
  | F_poisson_gamma | F_exponential_gamma => [[0; 2]; [1; 3]]
  | F_poisson_gamma_predictive => [[0; 2]; [1]]
  | F_exponential_gamma_predictive => [[1]; [0]]
  | F_gamma_known_shape | F_inverse_gamma_known_rate => [[1; 2; 3]; [0; 4]]
  | F_gamma_known_shape_predictive => [[2]; [0]; [1]]
  | F_normal_known_variance | F_normal_known_precision => [[0; 1; 2; 3; 4]; [1; 2; 4]]
  | F_normal_known_variance_predictive | F_normal_known_precision_predictive => [[1]; [0; 2]]
  | F_normal_known_mean_ig => [[2; 4]; [0; 1; 2; 3; 5]]
  | F_normal_known_mean_sics => [[2; 4]; [0; 1; 2; 3; 4; 5]]
  | F_normal_known_mean_predictive_ig | F_normal_known_mean_predictive_sics => [[0]; [1; 2]; [1]]
  | F_normal_nig | F_log_normal_nig => [[0; 2; 3; 6]; [2; 4]; [0; 1; 2; 3; 5; 6]; [2; 6]]
  | F_normal_ng | F_log_normal_ng => [[0; 2; 3; 4]; [2; 4]; [2; 5]; [0; 1; 2; 3; 4; 6]]
  | F_normal_predictive_nig => [[0]; [1; 2; 3]; [1]]
  | F_normal_predictive_ng => [[0]; [1; 2; 3]; [2]]
  | F_uniform_pareto => [[0; 2]; [1; 3]]
  | F_pareto_gamma => [[0; 3]; [0; 1; 2; 4]]
  | F_gamma => [[1; 3]; [0; 4]; [2; 5]; [2; 6]]
  | F_gamma_known_rate => [[0; 3]; [1; 4]; [1; 5]]
  | F_beta => [[0; 3]; [1; 4]; [2; 5]]
  | F_von_mises_known_concentration => [[1; 3; 4; 5]; [0; 1; 4; 5]]
  | F_von_mises_known_direction => [[1; 2]; [0; 3]]
  | F_weibull => [[0; 2]; [1; 3]]
  | F_Beta_from_mean => [[1]; [0; 1]]
  | F_Beta_from_successes_and_failures | F_Gamma_from_occurrences_in_intervals
  | F_Normal_from_mean_and_variance | F_Normal_from_mean_and_precision => [[0]; [1]]
  | F_sics_from_inverse_gamma | F_sics_to_inverse_gamma => [[0]; [0; 1]]
  | F_Exponential_mul => [[1]; [0]]
  | F_Gamma_mul | F_NegativeBinomial_mul => [[0; 2]; [1]]
  | F_Poisson_mul | F_Poisson_add => [[0; 1]]
  | F_Normal_mul => [[0; 2]; [1; 2]]
  end.

(** [fits s t]: an array of shape [s] can be broadcast to shape [t]: aligned at
    the last dimension, every dimension of [s] is 1 or the one of [t]. *)
Inductive fits_rev : list nat -> list nat -> Prop :=
| fits_nil t : fits_rev [] t
| fits_cons s t c d : c = 1 \/ c = d -> fits_rev s t -> fits_rev (c :: s) (d :: t).
Definition fits (s t : list nat) : Prop := fits_rev (rev s) (rev t).

(** [joint l s]: [s] is the smallest shape every member of [l] fits. *)
Definition joint (l : list (list nat)) (s : list nat) : Prop :=
  Forall (fun t => fits t s) l /\ forall u, Forall (fun t => fits t u) l -> fits s u.
(** The shapes cannot be broadcast together. *)
Definition incompatible (l : list (list nat)) : Prop := ~ exists s, Forall (fun t => fits t s) l.

(** Members of [l] at the given positions. *)
Definition pick {A} (d : A) (l : list A) (positions : list nat) : list A := map (fun k => nth k l d) positions.
