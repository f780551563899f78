(** What indexing a grid of distributions with a tuple should mean. *)

From Coq Require Import ZArith Bool List.
From Verif Require Import Model.NdArray Model.SliceModel Model.TupleKeys Spec.Indexing.
Import ListNotations.

(** Index [i] lies in an array of shape [s]. *)
Definition within (s i : list nat) : Prop := Forall2 lt i s.

(** Place [i] of [grid[items]] is place [j] of the grid of shape [s]: an integer fixes a
    coordinate, a slice picks one of the coordinates it selects, None adds a coordinate
    0, Ellipsis leaves any number of coordinates as they are. *)
Inductive reads : list nat -> list key_item -> list nat -> list nat -> Prop :=
| reads_end : reads [] [] [] []
| reads_int d s k ks p i j : names d k p -> reads s ks i j -> reads (d :: s) (IInt k :: ks) i (p :: j)
| reads_slice d s start stop step l ks c p i j : selects d (KSlice start stop step) l -> nth_error l c = Some p ->
    reads s ks i j -> reads (d :: s) (ISlice start stop step :: ks) (c :: i) (p :: j)
| reads_new s ks i j : reads s ks i j -> reads s (INew :: ks) (0%nat :: i) j
| reads_dots_more d s ks p i j : (p < d)%nat -> reads s (IDots :: ks) i j -> reads (d :: s) (IDots :: ks) (p :: i) (p :: j)
| reads_dots_end s ks i j : reads s ks i j -> reads s (IDots :: ks) i j.

(** A tuple without Ellipsis means the same with Ellipsis at the end. *)
Definition full_key (ks : list key_item) : list key_item := if existsb is_dots ks then ks else ks ++ [IDots].
Definition denotes (s : list nat) (ks : list key_item) (i j : list nat) : Prop := reads s (full_key ks) i j.

(** A parameter of a grid of distributions: a number for all, or an array of the shape of the grid *)
Definition grid_of {A} (s : list nat) (v : param A) : Prop :=
  match v with PArr a => nd_shape a = [] \/ nd_shape a = s | PList _ => False | PFlag _ => True end.
(** The value at place [i] of the grid *)
Definition at_place {A} (i : list nat) (v : param A) : option A :=
  match v with
  | PArr a => Some (match nd_shape a with [] => nd_entry a [] | _ => nd_entry a i end)
  | _ => None
  end.

(** Tuples numpy accepts for an array of shape [s]: the items for the axes in turn,
    Ellipsis at most once. *)
Inductive suits : list nat -> list key_item -> Prop :=
| suits_end : suits [] []
| suits_int d s k ks : (- Z.of_nat d <= k < Z.of_nat d)%Z -> suits s ks -> suits (d :: s) (IInt k :: ks)
| suits_slice d s start stop step ks : step <> 0%Z -> suits s ks -> suits (d :: s) (ISlice start stop step :: ks)
| suits_new s ks : suits s ks -> suits s (INew :: ks)
| suits_dots_more d s ks : suits s (IDots :: ks) -> suits (d :: s) (IDots :: ks)
| suits_dots_end s ks : suits s ks -> suits s (IDots :: ks).
Definition acceptable (s : list nat) (ks : list key_item) : Prop :=
  s <> [] /\ (length (filter is_dots ks) <= 1)%nat /\ suits s (full_key ks).
