(** Numpy's integers.  conjugate/_typing.py:4-19 admits everything that acts like a number,
    the README promises numpy; counts and sums of a numpy array are numpy integers of a
    fixed width, which wrap around, while Python's own integers have no bound.

    The rules are those of numpy 2 (poetry.lock:1208 pins 2.0.0; NEP 50): a Python number
    takes the type of the numpy integer it meets.  Rounding is not modelled: [Flt] is a
    float, of Python or numpy, with a real value.  Where numpy returns inf or nan
    (division by zero, root of a negative number) the model raises as Python does.
    Numpy's bool is in Model/NpBool.v. *)

From Coq Require Import ZArith Bool List String Reals.
From Verif Require Import Model.Num Model.Py Model.Table Model.PyNum.
Import ListNotations.
Open Scope Z_scope.

Inductive width := W8 | W16 | W32 | W64.
Definition bits (w : width) : Z := match w with W8 => 8 | W16 => 16 | W32 => 32 | W64 => 64 end.
(** np.int8, ..., np.uint64 *)
Record ity := mkIty { i_signed : bool; i_width : width }.
Definition int64 := mkIty true W64.
Definition int32 := mkIty true W32.
Definition uint8 := mkIty false W8.

Definition lowest (t : ity) : Z := if i_signed t then - 2 ^ (bits (i_width t) - 1) else 0.
Definition highest (t : ity) : Z := if i_signed t then 2 ^ (bits (i_width t) - 1) - 1 else 2 ^ bits (i_width t) - 1.
Definition fits (t : ity) (z : Z) : bool := (lowest t <=? z) && (z <=? highest t).
(** two's complement *)
Definition wrap (t : ity) (z : Z) : Z := lowest t + (z - lowest t) mod 2 ^ bits (i_width t).

Definition wider (v w : width) : bool := bits v <? bits w.
Definition wmax (v w : width) : width := if wider v w then w else v.
Definition wnext (w : width) : option width := match w with W8 => Some W16 | W16 => Some W32 | W32 => Some W64 | W64 => None end.
(** np.promote_types of two integer types; [None] is float64. *)
Definition promote (s t : ity) : option ity :=
  if Bool.eqb (i_signed s) (i_signed t) then Some (mkIty (i_signed s) (wmax (i_width s) (i_width t)))
  else
    let '(i, u) := if i_signed s then (i_width s, i_width t) else (i_width t, i_width s) in
    if wider u i then Some (mkIty true i) else option_map (mkIty true) (wnext u).

(** A Python int, a numpy integer, a float. *)
Inductive nv := PInt (z : Z) | NInt (t : ity) (z : Z) | Flt (r : R).
Definition value (v : nv) : R := match v with PInt z => IZR z | NInt _ z => IZR z | Flt r => r end.
(** A numpy integer lies in the range of its type. *)
Definition proper (v : nv) : bool := match v with NInt t z => fits t z | _ => true end.

Definition out_of_bounds {B} : res B := Raise (OverflowError "Python integer out of bounds").

(** What becomes of the result [z] of an operation on integers of type [t]: numpy wraps it
    around (with a RuntimeWarning for scalars, silently in arrays). *)
Definition numpy_keeps (t : ity) (z : Z) : res nv := Ok (NInt t (wrap t z)).
(** A hypothetical numpy that checks; used to say that nothing overflows. *)
Definition checked (t : ity) (z : Z) : res nv := if fits t z then Ok (NInt t z) else Raise (OverflowError "integer overflow").

Section Keep.
Context (keep : ity -> Z -> res nv).

(** The type two integers are computed in: [inl (Some t)] type [t], [inl None] Python's
    integers, [inr tt] floats. *)
Definition common (a b : nv) : res (option ity + unit) :=
  match a, b with
  | Flt _, _ | _, Flt _ => Ok (inr tt)
  | PInt _, PInt _ => Ok (inl None)
  | PInt x, NInt t _ | NInt t _, PInt x => if fits t x then Ok (inl (Some t)) else out_of_bounds
  | NInt s _, NInt t _ => match promote s t with Some u => Ok (inl (Some u)) | None => Ok (inr tt) end
  end.
Definition int_of (v : nv) : Z := match v with PInt z => z | NInt _ z => z | Flt _ => 0 end.

Definition arith (opZ : Z -> Z -> Z) (opR : R -> R -> R) (a b : nv) : res nv :=
  bind (common a b) (fun c =>
  match c with
  | inl (Some t) => keep t (opZ (int_of a) (int_of b))
  | inl None => Ok (PInt (opZ (int_of a) (int_of b)))
  | inr _ => Ok (Flt (opR (value a) (value b)))
  end).
(** [/] of integers is a float; the conversion of a Python int still has to succeed. *)
Definition divide (a b : nv) : res nv := bind (common a b) (fun _ => rmap Flt (py_div (value a) (value b))).
(** [** 2] keeps the type. *)
Definition square (a : nv) : res nv :=
  match a with PInt z => Ok (PInt (z ^ 2)) | NInt t z => keep t (z ^ 2) | Flt r => Ok (Flt (r ^ 2)%R) end.
(** np.maximum.  Of two Python ints it is a numpy int of the same value; no function of the
    library computes further with it. *)
Definition maximum := arith Z.max Rmax.

Definition v1 (f : nv -> res nv) (a : res nv) : res nv := bind a f.
Definition v2 (f : nv -> nv -> res nv) (a b : res nv) : res nv := bind a (fun a => bind b (fun b => f a b)).
Definition flt1 (f : R -> res R) : res nv -> res nv := v1 (fun a => rmap Flt (f (value a))).

Definition NumInt : Num (res nv) := {|
  nadd := v2 (arith Z.add Rplus); nsub := v2 (arith Z.sub Rminus); nmul := v2 (arith Z.mul Rmult);
  ndiv := v2 divide; nlit := fun z => Ok (PInt z); nhalf := Ok (Flt (/ 2)%R);
  nsq := v1 square; nsqrt := flt1 py_sqrt; nrsqrt := flt1 py_rsqrt;
  npow := v2 (fun a b => rmap Flt (py_pow (value a) (value b)))
|}.
Definition Ufuncs_int (arctan2 : R -> R -> R) : Ufuncs (res nv) :=
  mkUfuncs (flt1 py_ln) (v2 maximum) (flt1 (fun a => Ok (sin a))) (flt1 (fun a => Ok (cos a)))
           (v2 (fun a b => Ok (Flt (arctan2 (value a) (value b))))).
Definition run_keep (arctan2 : R -> R -> R) (f : fn) (args : list nv) : res (list nv) :=
  bind (run (NA := NumInt) (Ufuncs_int arctan2) f (map Ok args)) (fun out => sequence out).
End Keep.

(** A call of a function of the library with Python and numpy numbers. *)
Definition run_int := run_keep numpy_keeps.
(** The same call where every overflow would be an error. *)
Definition run_checked := run_keep checked.
