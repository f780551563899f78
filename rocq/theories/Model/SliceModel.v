(** Indexing distributions: slice.py.

    A parameter is a number-like array ([nd], a Python number being of shape []),
    a Python list of numbers, or a flag.  [value[key]] is modelled for integer
    keys, lists (or integer arrays) of positions, boolean masks and slices, on
    the first axis, as numpy and list do it. *)

From Coq Require Import ZArith Bool String List.
From Verif Require Import Model.Num Model.Py Model.Table Model.NdArray.
Import ListNotations.

Inductive key :=
| KInt (k : Z)
| KList (ks : list Z)
| KMask (m : list bool)
| KSlice (start stop : option Z) (step : Z).

Inductive param (A : Type) :=
| PArr (a : nd A)
| PList (l : list A)
| PFlag (b : bool).
Arguments PArr {A}. Arguments PList {A}. Arguments PFlag {A}.

(** Position of index [k] in an axis of length [d]: negative indices count from
    the end; out of range is None. *)
Definition position (d : nat) (k : Z) : option nat :=
  if (0 <=? k)%Z then if (k <? Z.of_nat d)%Z then Some (Z.to_nat k) else None
  else if (0 <=? Z.of_nat d + k)%Z then Some (Z.to_nat (Z.of_nat d + k)) else None.

Fixpoint positions (d : nat) (ks : list Z) : option (list nat) :=
  match ks with
  | [] => Some []
  | k :: ks' => match position d k, positions d ks' with Some p, Some ps => Some (p :: ps) | _, _ => None end
  end.

(** CPython's PySlice_AdjustIndices and range. *)
Definition clip (d : Z) (step : Z) (v : Z) : Z :=
  let lower := if (0 <? step)%Z then 0%Z else (-1)%Z in
  let upper := if (0 <? step)%Z then d else (d - 1)%Z in
  if (v <? 0)%Z then Z.max (v + d) lower else Z.min v upper.
Fixpoint py_range (fuel : nat) (i stop step : Z) : list nat :=
  match fuel with
  | O => []
  | S fuel' =>
      if (if (0 <? step)%Z then (i <? stop)%Z else (stop <? i)%Z)
      then Z.to_nat i :: py_range fuel' (i + step) stop step else []
  end.
Definition slice_positions (d : nat) (start stop : option Z) (step : Z) : list nat :=
  let dz := Z.of_nat d in
  let i := match start with Some v => clip dz step v | None => if (0 <? step)%Z then 0%Z else (dz - 1)%Z end in
  let j := match stop with Some v => clip dz step v | None => if (0 <? step)%Z then dz else (-1)%Z end in
  py_range d i j step.

Definition mask_positions (m : list bool) : list nat :=
  map fst (filter snd (combine (seq 0 (length m)) m)).

(** The positions a (non-integer) key selects from an axis of length [d], or the exception. *)
Definition select (d : nat) (k : key) : res (list nat) :=
  match k with
  | KInt _ => Raise IndexError
  | KList ks => match positions d ks with Some ps => Ok ps | None => Raise IndexError end
  | KMask m => if Nat.eqb (length m) d then Ok (mask_positions m) else Raise IndexError
  | KSlice start stop step =>
      if Z.eqb step 0 then Raise (ValueError "slice step cannot be zero") else Ok (slice_positions d start stop step)
  end.

Section Slice.
Context {A : Type} (default : A).

(** ndarray.__getitem__ on the first axis; an array of shape [] cannot be indexed *)
Definition nd_getitem (a : nd A) (k : key) : res (nd A) :=
  match nd_shape a with
  | [] => Raise IndexError
  | d :: s =>
      match k with
      | KInt z => match position d z with
                  | Some p => Ok (mkNd s (fun i => nd_entry a (p :: i)))
                  | None => Raise IndexError end
      | _ => let* ps := select d k in
             Ok (mkNd (length ps :: s) (fun i => match i with
                                                 | j :: i' => nd_entry a (nth j ps 0%nat :: i')
                                                 | [] => nd_entry a [] end))
      end
  end.

(** list.__getitem__: integers and slices only *)
Definition list_getitem (l : list A) (k : key) : res (param A) :=
  match k with
  | KInt z => match position (length l) z with
              | Some p => Ok (PArr (scalar (nth p l default)))
              | None => Raise IndexError end
  | KSlice _ _ _ => let* ps := select (length l) k in Ok (PList (map (fun p => nth p l default) ps))
  | _ => Raise (TypeError "list indices must be integers or slices, not list")
  end.

Definition getitem (v : param A) (k : key) : res (param A) :=
  match v with
  | PArr a => rmap PArr (nd_getitem a k)
  | PList l => list_getitem l k
  | PFlag _ => Raise (TypeError "'bool' object is not subscriptable")
  end.

(** slice.py:12-16 take_slice: any exception means the value is kept *)
Definition take_slice (v : param A) (k : key) : param A :=
  match getitem v k with Ok v' => v' | Raise _ => v end.

(** slice.py:11-20 SliceMixin.__getitem__: the dataclass fields of the new
    object of the same class *)
Definition dist_getitem (params : list (string * param A)) (k : key) : list (string * param A) :=
  map (fun p => (fst p, take_slice (snd p) k)) params.
End Slice.
