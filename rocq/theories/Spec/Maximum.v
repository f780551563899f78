(** The maximum of several counts. *)

From Coq Require Import Reals.
From Coquelicot Require Import Coquelicot.
Open Scope R_scope.

(** The probability that [n] independent counts with the masses [p] are all at most [k],
    that is, that their maximum is at most [k]. *)
Fixpoint all_at_most (p : nat -> R) (k n : nat) : R :=
  match n with O => 1 | S n => sum_n (fun x => p x * all_at_most p k n) k end.
