(** What the programs of the documentation are for. *)

From Coq Require Import Bool List Reals.
From Verif Require Import Model.Num Model.Dists Model.Models Model.DocPrograms.
Import ListNotations.
Open Scope R_scope.

(** How often a group was chosen, and how long it made us wait in total. *)
Definition times_chosen (group : nat) (steps : list step) : nat :=
  length (filter (fun s => Nat.eqb (s_group s) group) steps).
Definition total_wait (group : nat) (steps : list step) : R :=
  fold_right Rplus 0 (map s_wait (filter (fun s => Nat.eqb (s_group s) group) steps)).

(** The step chose the first of the groups with the smallest sampled estimate. *)
Definition chose_smallest (n_groups : nat) (s : step) : Prop :=
  (s_group s < n_groups)%nat /\ length (s_sample s) = n_groups /\
  (forall j, (j < n_groups)%nat -> nth (s_group s) (s_sample s) 0 <= nth j (s_sample s) 0) /\
  (forall j, (j < s_group s)%nat -> nth (s_group s) (s_sample s) 0 < nth j (s_sample s) 0).

Fixpoint sum_to (f : nat -> R) (n : nat) : R := match n with O => 0 | S n => sum_to f n + f n end.

(** docs/examples/bayesian-update.md: the posterior of each observation is the prior of the next. *)
Definition one_by_one (samples : list R) (prior : Beta R) : Beta R :=
  fold_left (fun prior x => bernoulli_beta x prior) samples prior.
