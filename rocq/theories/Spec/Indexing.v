(** What indexing a vector of distributions should mean. *)

From Coq Require Import ZArith Bool List Sorted.
From Verif Require Import Model.NdArray Model.SliceModel.
Import ListNotations.

(** A parameter of a family of [m] distributions: one value for all, or a vector of [m]. *)
Definition vector_of {A} (m : nat) (v : param A) : Prop :=
  match v with
  | PArr a => nd_shape a = [] \/ nd_shape a = [m]
  | PList l => length l = m
  | PFlag _ => True
  end.

(** The value of the parameter for member [i] of the family (flags: None). *)
Definition member {A} (d : A) (i : nat) (v : param A) : option A :=
  match v with
  | PArr a => Some (match nd_shape a with [] => nd_entry a [] | _ => nd_entry a [i] end)
  | PList l => Some (nth i l d)
  | PFlag _ => None
  end.

(** Integer [k] names member [i] of [m]: itself, or counted from the end. *)
Definition names (m : nat) (k : Z) (i : nat) : Prop :=
  (i < m)%nat /\ (k = Z.of_nat i \/ k = (Z.of_nat i - Z.of_nat m)%Z).

(** Bounds of a slice: absent, or counted from the end when negative. *)
Definition bound (m : nat) (default : Z) (v : option Z) : Z :=
  match v with
  | None => default
  | Some v => if (v <? 0)%Z then (v + Z.of_nat m)%Z else v
  end.
Local Open Scope Z_scope.

(** Key [k] selects the members [l] (in this order) of a family of [m]. *)
Inductive selects (m : nat) : key -> list nat -> Prop :=
| sel_list ks l : Forall2 (names m) ks l -> selects m (KList ks) l
| sel_mask b l : length b = m -> (forall i, In i l <-> nth i b false = true) -> StronglySorted lt l ->
    selects m (KMask b) l
| sel_forward start stop step l : 0 < step -> StronglySorted lt l ->
    (let first := Z.max 0 (bound m 0 start) in
     forall i, In i l <-> (i < m)%nat /\ first <= Z.of_nat i < bound m (Z.of_nat m) stop /\
                          (Z.of_nat i - first) mod step = 0) ->
    selects m (KSlice start stop step) l
| sel_backward start stop step l : step < 0 -> StronglySorted gt l ->
    (let first := Z.min (Z.of_nat m - 1) (bound m (Z.of_nat m - 1) start) in
     forall i, In i l <-> (i < m)%nat /\ bound m (-1) stop < Z.of_nat i <= first /\
                          (first - Z.of_nat i) mod (- step) = 0) ->
    selects m (KSlice start stop step) l.
