(** How much is lost by learning the parameter from the data. *)

From Coq Require Import Reals.
From Verif Require Import Model.Num Model.Py Model.Dists Model.Models Spec.Special Spec.Bayes Spec.Prequential.
From Coq Require Import List.
Import ListNotations.
Open Scope R_scope.

(** Predicting and updating from the prior [d] gives every sequence of observations at
    least the fraction 1 / [factor data] of the probability it has under any one value of
    the parameter in [dom], also one chosen after seeing all of the data. *)
Definition regret_at_most {P D O : Type} (lik : P -> O -> R) (update : D -> O -> res D) (predict : D -> O -> res R)
  (dom : P -> Prop) (obs : O -> Prop) (d : D) (factor : list O -> R) : Prop :=
  forall data, Forall obs data ->
  exists e c, one_by_one update predict d data = Ok (e, c) /\
    forall t, dom t -> likelihood lik data t <= factor data * c.

(** No smaller factor would do: at every length some sequence and parameter give equality. *)
Definition regret_reached {P D O : Type} (lik : P -> O -> R) (update : D -> O -> res D) (predict : D -> O -> res R)
  (dom : P -> Prop) (obs : O -> Prop) (d : D) (factor : list O -> R) : Prop :=
  forall N : nat, exists data t, length data = N /\ Forall obs data /\ dom t /\
  exists e c, one_by_one update predict d data = Ok (e, c) /\ 0 < c /\ likelihood lik data t = factor data * c.

(** Probability vectors, zeros allowed *)
Definition probabilities (n : nat) (p : list R) : Prop :=
  length p = S n /\ Forall (fun x => 0 <= x) p /\ sumR p = 1.

(** The factor for normal observations of variance [var] and a normal prior on their mean: it
    grows like the square root of the number of observations and with the distance of
    their average from the prior mean. *)
Definition normal_factor (var mu sigma : R) (data : list R) : R :=
  let n := INR (length data) in
  sqrt ((var + n * sigma ^ 2) / var) * exp (n * (sumR data / n - mu) ^ 2 / (2 * (var + n * sigma ^ 2))).

(** The factor for a gamma prior and data whose likelihood is t^a exp (- b t) up to a constant: *)
Definition gamma_factor (alpha beta a b : R) : R :=
  Gamma_fun alpha / Gamma_fun (alpha + a) * (Rpower (beta + b) (alpha + a) / Rpower beta alpha) *
  (Rpower (a / b) a * exp (- a)).

(** No smaller factor would do: the given data and some parameter give equality. *)
Definition regret_exact {P D O : Type} (lik : P -> O -> R) (update : D -> O -> res D) (predict : D -> O -> res R)
  (dom : P -> Prop) (obs : O -> Prop) (d : D) (factor : list O -> R) (interior : list O -> Prop) : Prop :=
  forall data, Forall obs data -> interior data -> exists t, dom t /\
  exists e c, one_by_one update predict d data = Ok (e, c) /\ 0 < c /\ likelihood lik data t = factor data * c.

(** The factor for a beta prior and data whose likelihood is t^a (1 - t)^b up to a constant: *)
Definition beta_factor (alpha beta a b : R) : R :=
  Beta_fun alpha beta / Beta_fun (alpha + a) (beta + b) * (Rpower (a / (a + b)) a * Rpower (b / (a + b)) b).

(** The two prior families of [normal_known_mean] by the shape and scale of their inverse gamma law *)
Definition variance_shape (d : VariancePrior R) : R :=
  match d with VIG d => InverseGamma_alpha d | VSICS d => ScaledInverseChiSquared_nu d / 2 end.
Definition variance_scale (d : VariancePrior R) : R :=
  match d with VIG d => InverseGamma_beta d | VSICS d => ScaledInverseChiSquared_nu d * ScaledInverseChiSquared_sigma2 d / 2 end.

(** As [regret_at_most], for data that meet a condition together: *)
Definition regret_at_most_for {P D O : Type} (lik : P -> O -> R) (update : D -> O -> res D) (predict : D -> O -> res R)
  (dom : P -> Prop) (d : D) (factor : list O -> R) (good : list O -> Prop) : Prop :=
  forall data, good data ->
  exists e c, one_by_one update predict d data = Ok (e, c) /\
    forall t, dom t -> likelihood lik data t <= factor data * c.

(** Not all observations are equal (otherwise the normal likelihood has no bound) *)
Definition not_all_equal (data : list R) : Prop := exists x y, In x data /\ In y data /\ x <> y.

(** The factor for normal observations of unknown mean and variance: *)
Definition joint_factor (mu nu alpha beta : R) (data : list R) : R :=
  let n := INR (length data) in
  let mean := sumR data / n in
  let S := sumR (map (fun x => (x - mean) ^ 2) data) in
  sqrt ((nu + n) / nu) * (Gamma_fun alpha / Gamma_fun (alpha + n / 2)) *
  (Rpower (beta + S / 2 + nu * n * (mean - mu) ^ 2 / (2 * (nu + n))) (alpha + n / 2) / Rpower beta alpha) *
  (Rpower (n / S) (n / 2) * exp (- (n / 2))).
Definition normal_joint_factor {M} (d : NormalPrior R M) : list R -> R :=
  match d with
  | PNIG d => match NormalInverseGamma_nu d with
     | Some nu => joint_factor (NormalInverseGamma_mu d) nu (NormalInverseGamma_alpha d) (NormalInverseGamma_beta d)
     | None => fun _ => 0 end
  | PNG d => joint_factor (NormalGamma_mu d) (NormalGamma_lam d) (NormalGamma_alpha d) (NormalGamma_beta d)
  end.

(** The cost per unit of data vanishes: whatever positive rate [eps] is allowed, every
    sequence that is long enough gets at least exp (- eps * size) of the probability it
    has under any one value of the parameter. *)
Definition no_regret {P D O : Type} (lik : P -> O -> R) (update : D -> O -> res D) (predict : D -> O -> res R)
  (dom : P -> Prop) (obs : O -> Prop) (d : D) (size : list O -> nat) : Prop :=
  forall eps, 0 < eps -> exists N : nat, forall data, Forall obs data -> (N <= size data)%nat ->
  exists e c, one_by_one update predict d data = Ok (e, c) /\
    forall t, dom t -> likelihood lik data t <= exp (eps * INR (size data)) * c.

(** The same for data that meet a condition together: *)
Definition no_regret_for {P D O : Type} (lik : P -> O -> R) (update : D -> O -> res D) (predict : D -> O -> res R)
  (dom : P -> Prop) (d : D) (size : list O -> nat) (good : list O -> Prop) : Prop :=
  forall eps, 0 < eps -> exists N : nat, forall data, good data -> (N <= size data)%nat ->
  exists e c, one_by_one update predict d data = Ok (e, c) /\
    forall t, dom t -> likelihood lik data t <= exp (eps * INR (size data)) * c.

(** Observations within [K] of [mu] whose sample variance is at least [s]. *)
Definition spread_data (mu K s : R) (data : list R) : Prop :=
  Forall (fun x => Rabs (x - mu) <= K) data /\
  s * INR (length data) <= sumR (map (fun x => (x - sumR data / INR (length data)) ^ 2) data).
