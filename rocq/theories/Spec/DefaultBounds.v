(** What a plot with the default bounds should show. *)

From Coq Require Import Reals ZArith String List.
From Coquelicot Require Import Coquelicot.
From Verif Require Import Model.Num Model.Py Model.ScipyDist Model.NdArray Model.SliceModel Model.PlotModel.
From Verif Require Import Spec.Densities Spec.Indexing.
From Coq Require Import List.
Open Scope R_scope.

(** Parameter [name] of member [j] has the value [r] *)
Definition parameter (fields : list (string * param R)) (name : string) (j : nat) (r : R) : Prop :=
  exists v, get_field fields name = Ok v /\ member 0 j v = Some r.

(** Every value with positive probability is among the points *)
Definition shows_mass (g : list R) (d : frozen R) : Prop := forall z, pmf d z <> 0 -> In (IZR z) g.

(** Every value with positive density lies between two points *)
Definition shows_density (g : list R) (d : frozen R) : Prop :=
  forall x, pdf d x <> 0 -> exists a b, In a g /\ In b g /\ a <= x <= b.

(** The points go once around the circle, over which the density integrates to one *)
Definition shows_circle (g : list R) (d : frozen R) : Prop :=
  exists a, In a g /\ In (a + 2 * PI) g /\ (forall x, In x g -> a <= x <= a + 2 * PI) /\ is_RInt (pdf d) a (a + 2 * PI) 1.
