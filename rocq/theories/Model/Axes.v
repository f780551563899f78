(** The state of the matplotlib Axes that outlives a plot: the property cycle.

    plot.py:181-182 and 343-344 pass [color] on with [ax.set_prop_cycle], which
    replaces the cycle of the Axes and starts it again; [ax.plot] takes the next
    colours of the cycle, one for every line (matplotlib's documentation of
    Axes.set_prop_cycle and of Axes.plot).  A reference to the cycle ("C0" ... "C9")
    cannot itself be put into the cycle: ValueError (matplotlib.rcsetup,
    validate_color_for_prop_cycle).  Simplified: format strings contain no
    colour, [color] is not given to [ax.plot] itself, other names of colours are valid,
    a single string is the list of that one colour. *)

From Coq Require Import Bool String List Reals.
From Verif Require Import Model.Num Model.Py Model.NdArray Model.PlotModel Model.Draw.
From Coq Require Import List.
Import ListNotations.

Record axes := mkAxes { ax_cycle : list string; ax_next : nat }.

(** The next [n] colours *)
Definition take_colours (a : axes) (n : nat) : res (axes * list string) :=
  match n, ax_cycle a with
  | O, _ => Ok (a, [])
  | S _, [] => Raise IndexError
  | _, c => Ok (mkAxes c (Nat.modulo (ax_next a + n) (length c)),
                map (fun j => nth (Nat.modulo (ax_next a + j) (length c)) c EmptyString) (seq 0 n))
  end.

(** matplotlib.rcsetup: "C" and one digit *)
Definition cycle_reference (s : string) : bool :=
  existsb (String.eqb s) ["C0"; "C1"; "C2"; "C3"; "C4"; "C5"; "C6"; "C7"; "C8"; "C9"]%string.
Definition set_prop_cycle (c : list string) : res axes :=
  if existsb cycle_reference c then Raise (ValueError "Cannot put cycle reference in prop_cycler") else Ok (mkAxes c 0).

(** The Axes afterwards and the colours of the lines added *)
Fixpoint colours_of (a : axes) (calls : list axes_call) : res (axes * list string) :=
  match calls with
  | [] => Ok (a, [])
  | SetPropCycle c :: calls' =>
      let* a' := set_prop_cycle c in
      colours_of a' calls'
  | PlotCall x yy _ l :: calls' =>
      let* lines := axes_plot x yy l in
      let* (a', c) := take_colours a (length lines) in
      let* (a'', c') := colours_of a' calls' in
      Ok (a'', c ++ c')
  | _ :: calls' => colours_of a calls'
  end.
