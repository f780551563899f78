(** Indexing distributions of more than one axis: slice.py with keys that are tuples of
    integers, slices, None and Ellipsis, as in [posterior[0, 1:]] or [posterior[..., None]].
    A key that is None or Ellipsis alone is a tuple of one item to numpy. *)

From Coq Require Import ZArith Bool String List.
From Verif Require Import Model.Num Model.Py Model.NdArray Model.SliceModel.
Import ListNotations.

Inductive key_item :=
| IInt (k : Z)
| ISlice (start stop : option Z) (step : Z)
| INew
| IDots.

Definition is_dots (k : key_item) : bool := match k with IDots => true | _ => false end.
(** The axes of the array an item uses up *)
Definition uses (k : key_item) : nat := match k with IInt _ | ISlice _ _ _ => 1 | _ => 0 end.
Definition used (ks : list key_item) : nat := fold_right (fun k n => uses k + n) 0 ks.
(** [:] *)
Definition whole : key_item := ISlice None None 1.

(** Ellipsis, or the end of a tuple without one, stands for the remaining axes *)
Fixpoint fill (m : nat) (ks : list key_item) : list key_item :=
  match ks with
  | [] => repeat whole m
  | IDots :: ks' => repeat whole m ++ ks'
  | k :: ks' => k :: fill m ks'
  end.
(** numpy's prepare_index for an array of [r] axes *)
Definition expand (r : nat) (ks : list key_item) : res (list key_item) :=
  if Nat.ltb 1 (length (filter is_dots ks)) then Raise IndexError
  else if Nat.ltb r (used ks) then Raise IndexError
  else Ok (fill (r - used ks) ks).

(** The shape of the result and the place in the array of each of its entries *)
Fixpoint view (s : list nat) (ks : list key_item) : res (list nat * (list nat -> list nat)) :=
  match ks, s with
  | [], [] => Ok ([], fun _ => [])
  | INew :: ks', _ =>
      let* v := view s ks' in Ok (1%nat :: fst v, fun i => snd v (tl i))
  | IInt k :: ks', d :: s' =>
      match position d k with
      | None => Raise IndexError
      | Some p => let* v := view s' ks' in Ok (fst v, fun i => p :: snd v i)
      end
  | ISlice start stop step :: ks', d :: s' =>
      let* ps := select d (KSlice start stop step) in
      let* v := view s' ks' in
      Ok (length ps :: fst v, fun i => nth (hd 0%nat i) ps 0%nat :: snd v (tl i))
  | _, _ => Raise IndexError
  end.

Section TupleKeys.
Context {A : Type}.

(** ndarray.__getitem__; an array of shape [] is a Python number here *)
Definition nd_gettuple (a : nd A) (ks : list key_item) : res (nd A) :=
  match nd_shape a with
  | [] => Raise (TypeError "'float' object is not subscriptable")
  | s => let* ks := expand (length s) ks in
         let* v := view s ks in
         Ok (mkNd (fst v) (fun i => nd_entry a (snd v i)))
  end.

(** value[key]; lists take no tuples *)
Definition gettuple (v : param A) (ks : list key_item) : res (param A) :=
  match v with
  | PArr a => rmap PArr (nd_gettuple a ks)
  | PList _ => Raise (TypeError "list indices must be integers or slices, not tuple")
  | PFlag _ => Raise (TypeError "'bool' object is not subscriptable")
  end.

(** slice.py:12-16 take_slice *)
Definition take_tuple (v : param A) (ks : list key_item) : param A :=
  match gettuple v ks with Ok v' => v' | Raise _ => v end.

(** slice.py:11-20 SliceMixin.__getitem__ *)
Definition dist_gettuple (params : list (string * param A)) (ks : list key_item) : list (string * param A) :=
  map (fun p => (fst p, take_tuple (snd p) ks)) params.
End TupleKeys.
