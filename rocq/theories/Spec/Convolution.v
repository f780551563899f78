(** Distribution of a sum of independent variables. *)

From Coq Require Import Reals.
From Coquelicot Require Import Coquelicot.
Open Scope R_scope.

(** Mass function of X + Y for independent counts with mass functions [f], [g]. *)
Definition convN (f g : nat -> R) (k : nat) : R :=
  sum_f_R0 (fun i => f i * g (k - i)%nat) k.

(** Mass function of the sum of [n] independent copies. *)
Fixpoint iidN (f : nat -> R) (n : nat) : nat -> R :=
  match n with
  | O => fun k => match k with O => 1 | S _ => 0 end
  | S n' => convN f (iidN f n')
  end.

(** [h x] is the density at [x] of X + Y for independent positive variables. *)
Definition conv_pos (f g : R -> R) (x h : R) : Prop :=
  is_RInt_gen (fun y => f y * g (x - y)) (at_right 0) (at_left x) h.

(** The same for variables on the whole line. *)
Definition conv_line (f g : R -> R) (x h : R) : Prop :=
  is_RInt_gen (fun y => f y * g (x - y)) (Rbar_locally m_infty) (Rbar_locally p_infty) h.

(** [h] is the density of the sum of [n + 1] independent copies of a variable
    with density [f], at the points satisfying [dom]. *)
Fixpoint iid_density (conv : (R -> R) -> (R -> R) -> R -> R -> Prop) (dom : R -> Prop)
  (f : R -> R) (n : nat) (h : R -> R) : Prop :=
  match n with
  | O => forall x, dom x -> h x = f x
  | S n' => exists h', iid_density conv dom f n' h' /\ forall x, dom x -> conv f h' x (h x)
  end.
