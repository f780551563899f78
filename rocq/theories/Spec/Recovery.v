(** Recovering the parameter of a distribution from ever more data drawn from it. *)

From Coq Require Import Reals ZArith.
From Coquelicot Require Import Coquelicot.
From Verif Require Import Spec.Bayes Spec.Limits.
From Coq Require Import List.
Import ListNotations.
Open Scope R_scope.

(** Data sets of unlimited size, all observations in [support]. *)
Definition ever_more (support : R -> Prop) (data : nat -> list R) : Prop :=
  (forall N, data N <> [] /\ Forall support (data N)) /\ is_lim_seq (fun N => INR (length (data N))) p_infty.

(** The averages of the statistic [T] tend to [e]. *)
Definition averages_to (data : nat -> list R) (T : R -> R) (e : R) : Prop :=
  is_lim_seq (fun N => sumR (map T (data N)) / INR (length (data N))) e.

(** [e] is the expectation of the statistic [T] under a mass function on 0, 1, ... or a density. *)
Definition count_expectation (mass : Z -> R) (T : R -> R) (e : R) : Prop :=
  is_series (fun k : nat => T (INR k) * mass (Z.of_nat k)) e.
Definition real_expectation (Fa Fb : (R -> Prop) -> Prop) (density : R -> R) (T : R -> R) (e : R) : Prop :=
  is_RInt_gen (fun x => T x * density x) Fa Fb e.

(** The statistics [Ts] have expectations under the true distribution, and whenever their averages over ever more
    data tend to them, the posteriors of the data concentrate at [truth]. *)
Definition recovers (expectation : (R -> R) -> R -> Prop) (support : R -> Prop) (Ts : list (R -> R))
    (Fa Fb : (R -> Prop) -> Prop) (dom : R -> Prop) (posterior : list R -> R -> R) (truth : R) : Prop :=
  exists es, Forall2 expectation Ts es /\
  forall data, ever_more support data -> Forall2 (averages_to data) Ts es ->
  concentrates Fa Fb dom (fun N => posterior (data N)) truth.

(** The data come arbitrarily close to [top] from below. *)
Definition approaches (top : R) (data : nat -> list R) : Prop :=
  forall c, c < top -> exists K, forall N, (K <= N)%nat -> Exists (fun x => c < x) (data N).

(** [q] cuts off the mass [p] of a density on (Fa, Fb): what scipy calls ppf(p). *)
Definition is_quantile (Fa Fb : (R -> Prop) -> Prop) (f : R -> R) (p q : R) : Prop :=
  is_RInt_gen f Fa (at_point q) p /\ is_RInt_gen f (at_point q) Fb (1 - p).
