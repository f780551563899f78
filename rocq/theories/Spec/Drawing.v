(** What a plot should show. *)

From Coq Require Import Reals Bool String List.
From Verif Require Import Model.Num Model.Py Model.ScipyDist Model.NdArray Model.SliceModel Model.PlotModel Model.Draw.
From Verif Require Import Spec.Indexing Spec.Plotting.
From Coq Require Import List.
Import ListNotations.
Open Scope R_scope.

(** The fields of a family of [m] distributions of class [c]: the names are those
    of the dataclass, every parameter is one number for all or a vector (array or
    list) with one entry for each, flags are booleans.  Lists are not allowed for
    parameters the library computes with: in [raising_fields] a list has no
    division or subtraction, in [mixed_fields] it has no arithmetic with numbers. *)
Definition raising_fields : list (string * string) := [
  ("Gamma", "beta"); ("Weibull", "beta"); ("ScaledInverseChiSquared", "nu"); ("CompoundGamma", "alpha") ]%string.
Definition mixed_fields : list (string * string) := [
  ("Weibull", "theta"); ("ScaledInverseChiSquared", "sigma2"); ("CompoundGamma", "beta"); ("CompoundGamma", "lam") ]%string.
Definition arithmetic (c name : string) : Prop := In (c, name) (raising_fields ++ mixed_fields).
Definition family (m : nat) (c : plot_class) (fields : list (string * param R)) : Prop :=
  exists ks, In (pc_name c, ks) dataclass_fields /\
  Forall2 (fun p k => fst p = fst k /\
    match snd k with
    | Number => vector_of m (snd p) /\ (forall b, snd p <> PFlag b) /\
                (forall l, snd p = PList l -> ~ arithmetic (pc_name c) (fst p))
    | Flag => exists b, snd p = PFlag b
    end) fields ks.

(** A family but for lists where none are allowed *)
Definition any_family (m : nat) (c : plot_class) (fields : list (string * param R)) : Prop :=
  exists ks, In (pc_name c, ks) dataclass_fields /\
  Forall2 (fun p k => fst p = fst k /\
    match snd k with
    | Number => vector_of m (snd p) /\ (forall b, snd p <> PFlag b)
    | Flag => exists b, snd p = PFlag b
    end) fields ks.

(** One curve for every member; one curve if all parameters are numbers. *)
Definition is_vector (v : param R) : bool :=
  match v with PArr a => match nd_shape a with [] => false | _ => true end | PList _ => true | PFlag _ => false end.
Definition curves (m : nat) (fields : list (string * param R)) : nat :=
  if existsb (fun p => is_vector (snd p)) fields then m else 1%nat.

(** The scipy distribution of member [j]: the dist property of the class on the
    numbers of that member *)
Definition member_dist (release : list nat) (c : plot_class) (fields : list (string * param R)) (j : nat) : res (frozen R) :=
  class_dist (NA := NumR) release (pc_name c)
    (fun name => let* v := get_field fields name in
                 match member 0 j v with Some r => Ok r | None => Raise (TypeError "flag") end)
    (flag_field fields).

(** A Python float is a number *)
Definition float_test (is_float : param R -> bool) : Prop :=
  forall v, is_float v = true -> exists a, v = PArr a /\ nd_shape a = [].

(** scipy is recent enough for the class *)
Definition available (release : list nat) (c : plot_class) : Prop :=
  pc_name c = "BetaNegativeBinomial"%string -> tuple_lt release [1; 12; 0]%nat = false.

(** The classes whose distribution object is the library's own and has no cdf *)
Definition no_cdf (c : plot_class) : bool := String.eqb (pc_name c) "BetaGeometric" || String.eqb (pc_name c) "CompoundGamma".

(** The text matplotlib shows for curve [j] of [k]: with several curves a string is
    numbered from 1 and a callable is applied to j; a list has one entry for each *)
Definition expected_text (st : style) (k j : nat) : line_label :=
  match st_label st with
  | None | Some LNone => Text None
  | Some (LStr s) => Text (Some (if Nat.eqb k 1 then s else (s ++ " " ++ str_of_nat (S j))%string))
  | Some (LCallable g) => if Nat.eqb k 1 then Printed (LCallable g) else Text (Some (g j))
  | Some (LIter l) => if Nat.eqb k 1 && negb (Nat.eqb (length l) 1) then Printed (LIter l) else Text (nth_error l j)
  end.
Definition label_fits (st : style) (k : nat) : Prop :=
  forall l, st_label st = Some (LIter l) -> k = 0%nat \/ k = 1%nat \/ length l = k.

(** The height of curve [j] at [x]: the value of the function, or its share of the
    sum of all values drawn *)
Definition height (shared : bool) (g : list R) (k : nat) (y : R -> nat -> R) (x : R) (j : nat) : R :=
  if shared then y x j / total_of (map (fun x => total_of (map (y x) (seq 0 k))) g) else y x j.
