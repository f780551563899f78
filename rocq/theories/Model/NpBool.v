(** Numpy's booleans as data: what a comparison of arrays gives (clicked = delay < 5), or one
    element of it.  conjugate/_typing.py:4-19 admits them: they have the operators of a number.

    As Model/IntTypes.v, rules of numpy 2.  A boolean takes the type of the number it meets
    (np.int64 for a Python int, NEP 50); between two booleans [+] is "or", [*] is "and", [-] is
    refused.  [** 2] of a boolean has another type for scalars than for arrays and is not
    modelled ([unmodelled]).  Rounding is not modelled, so neither is that np.log, np.sin,
    np.cos of a boolean are float16. *)

From Coq Require Import ZArith Bool List String Reals.
From Verif Require Import Model.Num Model.Py Model.Table Model.PyNum Model.IntTypes.
Import ListNotations.
Open Scope Z_scope.

(** A numpy bool, or another number *)
Inductive bv := NBool (b : bool) | Other (v : nv).
Definition bvalue (v : bv) : R := match v with NBool b => IZR (Z.b2z b) | Other v => value v end.

(** The boolean [b] converted to the type of [v] *)
Definition as_type_of (v : nv) (b : bool) : nv := NInt (match v with NInt t _ => t | _ => int64 end) (Z.b2z b).

Definition no_subtraction : exn :=
  TypeError "numpy boolean subtract, the `-` operator, is not supported, use the bitwise_xor, the `^` operator, or the logical_xor function instead.".
Definition unmodelled : exn := TypeError "square of a boolean".

(** An operation with [same] between two booleans and [f] otherwise *)
Definition mixed (same : bool -> bool -> res bv) (f : nv -> nv -> res nv) (a b : bv) : res bv :=
  match a, b with
  | NBool x, NBool y => same x y
  | NBool x, Other v => rmap Other (f (as_type_of v x) v)
  | Other v, NBool y => rmap Other (f v (as_type_of v y))
  | Other u, Other v => rmap Other (f u v)
  end.
(** Between two booleans, computed with floats *)
Definition floats (f : R -> R -> res R) (x y : bool) : res bv := rmap (fun r => Other (Flt r)) (f (IZR (Z.b2z x)) (IZR (Z.b2z y))).
Definition float_of (f : R -> res R) (a : bv) : res bv := rmap (fun r => Other (Flt r)) (f (bvalue a)).
Definition b1 (f : bv -> res bv) (a : res bv) : res bv := bind a f.
Definition b2 (f : bv -> bv -> res bv) (a b : res bv) : res bv := bind a (fun a => bind b (fun b => f a b)).

Definition NumBool : Num (res bv) := {|
  nadd := b2 (mixed (fun x y => Ok (NBool (x || y))) (arith numpy_keeps Z.add Rplus));
  nsub := b2 (mixed (fun _ _ => Raise no_subtraction) (arith numpy_keeps Z.sub Rminus));
  nmul := b2 (mixed (fun x y => Ok (NBool (x && y))) (arith numpy_keeps Z.mul Rmult));
  ndiv := b2 (mixed (floats py_div) divide);
  nlit := fun z => Ok (Other (PInt z)); nhalf := Ok (Other (Flt (/ 2)%R));
  nsq := b1 (fun a => match a with NBool _ => Raise unmodelled | Other v => rmap Other (square numpy_keeps v) end);
  nsqrt := b1 (float_of py_sqrt); nrsqrt := b1 (float_of py_rsqrt);
  npow := b2 (mixed (floats py_pow) (fun a b => rmap Flt (py_pow (value a) (value b))))
|}.
Definition Ufuncs_bool (arctan2 : R -> R -> R) : Ufuncs (res bv) :=
  mkUfuncs (b1 (float_of py_ln)) (b2 (mixed (fun x y => Ok (NBool (x || y))) (maximum numpy_keeps)))
    (b1 (float_of (fun a => Ok (sin a)))) (b1 (float_of (fun a => Ok (cos a))))
    (b2 (mixed (floats (fun a b => Ok (arctan2 a b))) (fun a b => Ok (Flt (arctan2 (value a) (value b)))))).

(** A call of a function of the library with numpy booleans among the numbers *)
Definition run_bool (arctan2 : R -> R -> R) (f : fn) (args : list bv) : res (list bv) :=
  bind (run (NA := NumBool) (Ufuncs_bool arctan2) f (map Ok args)) (fun out => sequence out).
