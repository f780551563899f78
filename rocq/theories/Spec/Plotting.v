(** What plotting should do. *)

From Coq Require Import Reals String List.
From Verif Require Import Model.NdArray Model.SliceModel Model.PlotModel.
From Coq Require Import List.
Import ListNotations.
Open Scope R_scope.

(** The value a history last gave to the minimum (maximum) of object [r] *)
Definition sets_min (r : nat) (op : operation) : option R :=
  match op with
  | SetMin r' v => if Nat.eqb r' r then Some v else None
  | SetBounds r' v _ => if Nat.eqb r' r then Some v else None
  | _ => None
  end.
Definition sets_max (r : nat) (op : operation) : option R :=
  match op with
  | SetMax r' v => if Nat.eqb r' r then Some v else None
  | SetBounds r' _ v => if Nat.eqb r' r then Some v else None
  | _ => None
  end.
Fixpoint last_set (f : operation -> option R) (ops : list operation) : option R :=
  match ops with
  | [] => None
  | op :: ops' => match last_set f ops' with Some v => Some v | None => f op end
  end.

(** Sum of the values of curve [j] over the grid (rows) *)
Definition curve (j : nat) (yy : list (list R)) : list R := map (fun row => nth j row 0) yy.
Definition total_of (l : list R) : R := fold_right Rplus 0 l.
(** a table with [m] curves *)
Definition table (m : nat) (yy : list (list R)) : Prop := Forall (fun row => length row = m) yy.

(** a dataclass field that is a number *)
Definition number_field (p : string * param R) : Prop := exists a, snd p = PArr a /\ nd_shape a = [].
