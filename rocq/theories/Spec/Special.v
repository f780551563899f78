(** The special functions used by scipy's densities, defined by their integrals. *)

From Coq Require Import Reals.
From Coquelicot Require Import Coquelicot.
Open Scope R_scope.

(** Euler's Gamma function, the value computed by [scipy.special.gamma]. *)
Definition Gamma_fun (a : R) : R :=
  RInt_gen (fun t => Rpower t (a - 1) * exp (- t)) (at_right 0) (Rbar_locally p_infty).

(** Euler's Beta function, [scipy.special.beta]. *)
Definition Beta_fun (a b : R) : R :=
  RInt_gen (fun t => Rpower t (a - 1) * Rpower (1 - t) (b - 1)) (at_right 0) (at_left 1).

(** The modified Bessel function of order zero, [scipy.special.i0]. *)
Definition Bessel_i0 (k : R) : R := / PI * RInt (fun t => exp (k * cos t)) 0 PI.

(** Rising factorial [a (a+1) ... (a+k-1)]. *)
Fixpoint rising (a : R) (k : nat) : R :=
  match k with O => 1 | S k' => rising a k' * (a + INR k') end.

(** Falling factorial [a (a-1) ... (a-k+1)]. *)
Fixpoint falling (a : R) (k : nat) : R :=
  match k with O => 1 | S k' => falling a k' * (a - INR k') end.

(** Binomial coefficient "n choose k". *)
Definition choose (n : R) (k : nat) : R := falling n k / INR (fact k).
