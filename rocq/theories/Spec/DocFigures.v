(** What the figures of the documentation should show. *)

From Coq Require Import Reals Bool String List.
From Verif Require Import Model.Num Model.ScipyDist Model.NdArray Model.SliceModel Model.PlotModel Model.Draw.
From Verif Require Import Spec.Drawing.
From Coq Require Import List.
Import ListNotations.
Open Scope R_scope.

(** An object that can be plotted as one continuous curve (also its cdf, if [cdf]) *)
Definition one_curve (release : list nat) (cdf : bool) (o : object) : Prop :=
  pc_kind (o_class o) = Continuous /\ (exists m, family m (o_class o) (o_fields o) /\ curves m (o_fields o) = 1%nat) /\
  available release (o_class o) /\ (cdf = true -> no_cdf (o_class o) = false).

(** The graph of [y] over 100 evenly spaced points from [lo] to [hi], under its name *)
Definition graph (y : R -> R) (lo hi : R) (text : string) : line :=
  mkLine (map (fun x => (x, y x)) (linspace lo hi 100)) (Text (Some text)).
