(** Which integers a function of the library computes correctly. *)

From Coq Require Import ZArith List Reals.
From Verif Require Import Model.Py Model.Table Model.IntTypes.
Import ListNotations.
Open Scope Z_scope.

(** A number of Python, int or float: no numpy integer. *)
Definition python_number (v : nv) : Prop := match v with NInt _ _ => False | _ => True end.

(** A float, or an integer of size at most [bound] that is Python's or numpy's, signed and
    of at least [w] bits. *)
Definition moderate (w : width) (bound : Z) (v : nv) : Prop :=
  match v with
  | Flt _ => True
  | PInt z => Z.abs z <= bound
  | NInt t z => i_signed t = true /\ bits w <= bits (i_width t) /\ Z.abs z <= bound
  end.

(** A float, a Python int, or a numpy integer of type [t]. *)
Definition of_type (t : ity) (v : nv) : Prop := match v with NInt s _ => s = t | _ => True end.

(** The result with its numbers, whatever their types. *)
Definition numbers (r : res (list nv)) : res (list R) := rmap (map value) r.

(** How far the integers in the formula of a function multiply each other. *)
Inductive degree := Linear | Quadratic | Cubic.
Definition degree_of (f : fn) : degree :=
  match f with
  | F_normal_known_mean_ig | F_normal_known_mean_sics | F_normal_nig | F_normal_ng | F_log_normal_nig | F_log_normal_ng | F_Normal_mul => Cubic
  | F_negative_binomial_beta | F_poisson_gamma_predictive | F_gamma_known_shape | F_inverse_gamma_known_rate
  | F_normal_known_variance | F_normal_known_variance_predictive | F_normal_known_precision | F_normal_known_precision_predictive
  | F_normal_known_mean_predictive_sics | F_normal_predictive_nig | F_normal_predictive_ng | F_gamma | F_gamma_known_rate | F_beta
  | F_von_mises_known_concentration | F_sics_to_inverse_gamma | F_Gamma_mul | F_NegativeBinomial_mul | F_Poisson_mul => Quadratic
  | _ => Linear
  end.
(** Up to here integers of [w] bits are safe: for 64 bits 2^61, 2^31 (two billion) and 2^21
    (two million). *)
Definition limit (w : width) (f : fn) : Z :=
  match degree_of f with
  | Linear => 2 ^ (bits w - 3) - 1
  | Quadratic => 2 ^ (bits w / 2 - 1) - 1
  | Cubic => 2 ^ (bits w / 3) - 1
  end.

(** [v] stands for the exact number [r]: a Python int is right; a numpy integer is the
    one in the range of its type that differs from [r] by a multiple of 2^bits. *)
Definition right_modulo (t : ity) (v : nv) (r : R) : Prop :=
  match v with
  | PInt z => r = IZR z
  | NInt s x => s = t /\ lowest t <= x <= highest t /\ exists k, r = IZR (x + k * 2 ^ bits (i_width t))
  | Flt _ => True
  end.

(** Every number of type [t] is one of type [u]. *)
Definition contains (u t : ity) : Prop := forall z, lowest t <= z <= highest t -> lowest u <= z <= highest u.
