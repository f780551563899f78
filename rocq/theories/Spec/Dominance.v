(** What it means that evidence moves a distribution upwards. *)

From Coq Require Import Reals.
From Coquelicot Require Import Coquelicot.
From Verif Require Import Spec.Bayes.
From Coq Require Import List.
Open Scope R_scope.

(** The density [g] puts its parameter above that of [f]: at every value [t] of the
    parameter, at most [t] is less probable under [g] than under [f].  [Fa] is the lower
    end of the interval of values, [dom] its points. *)
Definition moved_up (Fa : (R -> Prop) -> Prop) (dom : R -> Prop) (f g : R -> R) : Prop :=
  forall t, dom t -> exists at_most_f at_most_g : R,
  is_RInt_gen f Fa (at_point t) at_most_f /\ is_RInt_gen g Fa (at_point t) at_most_g /\ at_most_g < at_most_f.

(** The sum of the squared distances of the data from [mu]. *)
Definition deviations (mu : R) (data : list R) : R := sumR (map (fun x => (x - mu) ^ 2) data).
