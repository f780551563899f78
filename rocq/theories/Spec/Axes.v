(** What the decorations of a plot should be. *)

From Coq Require Import Reals Bool Ascii String List.
From Verif Require Import Model.Num Model.Py Model.NdArray Model.PlotModel Model.Draw Model.Axes.
From Coq Require Import List.
Import ListNotations.
Open Scope R_scope.

(** The texts on the axes *)
Definition x_texts (calls : list axes_call) : list string :=
  flat_map (fun c => match c with SetXlabel s => [s] | _ => [] end) calls.
Definition y_texts (calls : list axes_call) : list string :=
  flat_map (fun c => match c with SetYlabel s => [s] | _ => [] end) calls.
Definition plot_calls (calls : list axes_call) : list axes_call :=
  flat_map (fun c => match c with PlotCall _ _ _ _ => [c] | _ => [] end) calls.
Definition cycles (calls : list axes_call) : list (list string) :=
  flat_map (fun c => match c with SetPropCycle c => [c] | _ => [] end) calls.
(** The ticks set last, major and minor *)
Definition ticks (minor : bool) (calls : list axes_call) : list R :=
  last (flat_map (fun c => match c with SetXticks t m => if Bool.eqb m minor then [t] else [] | _ => [] end) calls) [].

Definition y_text (k : kind) (cdf conditional : bool) (lo hi : string) : string :=
  match k, cdf, conditional with
  | Continuous, false, _ => "Density $f(x)$"
  | Continuous, true, _ => "Cumulative Density $F(x)$"
  | Discrete, false, false => "Probability $f(x)$"
  | Discrete, true, false => "Cumulative Probability $F(X \leq x)$"
  | Discrete, false, true => "Conditional Probability $f(x|" ++ lo ++ " \leq x \leq " ++ hi ++ ")$"
  | Discrete, true, true => "Conditional Cumulative Probability $F(X \leq x|" ++ lo ++ " \leq x \leq " ++ hi ++ ")$"
  end%string.

(** No texts on polar axes *)
Definition has_texts (k : kind) (polar : bool) : bool := match k with Continuous => negb polar | Discrete => true end.

(** Colour [j], going round *)
Definition round (c : list string) (j : nat) : string := nth (Nat.modulo j (length c)) c EmptyString.

(** "C" and one digit: the n-th colour of the cycle in force *)
Definition refers_to_cycle (s : string) : Prop :=
  exists d : Ascii.ascii, (48 <= Ascii.nat_of_ascii d <= 57)%nat /\ s = String "C"%char (String d EmptyString).

(** Colours that can be given: none at all, or a list of names *)
Definition named_colours (st : style) : Prop :=
  match st_color st with None => True | Some c => c <> [] /\ forall s, In s c -> ~ refers_to_cycle s end.
