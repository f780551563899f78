(** IEEE 754 binary64, the numbers the code computes with: Python floats and
    numpy float64 arrays.  The arithmetic is Flocq's, whose correctness with
    respect to the real numbers is proved there.

    Simplifications.  NaN payloads and the inexact/overflow warnings are not
    modelled.  Division by zero gives an infinity or NaN as with numpy scalars
    and arrays; Python floats raise instead (Model/PyNum.v).  All arguments are
    floats: a Python int argument is its float.  [**] and the elementary
    functions come from the C library and numpy, which do not promise correctly
    rounded results, so they are parameters. *)

From Coq Require Import ZArith Bool List String Reals Lia.
From Flocq Require Import Core BinarySingleNaN.
From Verif Require Import Model.Num Model.Py Model.Table.
Import ListNotations.

Definition f64 : Type := binary_float 53 1024.

Definition f64_prec : Prec_gt_0 53 := eq_refl.
Definition f64_emax : Prec_lt_emax 53 1024 := eq_refl.
#[export] Existing Instances f64_prec f64_emax.

(** The float nearest to [m * 2^e]: the literals of the source. *)
Definition f64_of (m e : Z) : f64 := binary_normalize 53 1024 f64_prec f64_emax mode_NE m e false.

(** The functions of the C library / numpy that reach the element-wise models:
    [**] (models.py:873-879, 944-945, 1098, 1213, 1233, 1343;
    distributions.py:450, 455, 458) and
    the callables passed for [ln], [max_fn], [sin], [cos], [arctan2]
    (models.py:1461, 1510, 1667-1669). *)
Record Libm := mkLibm {
  lm_pow : f64 -> f64 -> f64;
  lm_ln : f64 -> f64; lm_max : f64 -> f64 -> f64;
  lm_sin : f64 -> f64; lm_cos : f64 -> f64; lm_arctan2 : f64 -> f64 -> f64 }.

(** [+ - * /] round to nearest, ties to even (_typing.py:4-19). *)
Definition NumF64 (L : Libm) : Num f64 := {|
  nadd := Bplus mode_NE; nsub := Bminus mode_NE; nmul := Bmult mode_NE; ndiv := Bdiv mode_NE;
  nlit := fun z => f64_of z 0; nhalf := f64_of 1 (-1);
  nsq := fun x => lm_pow L x (f64_of 2 0);
  nsqrt := fun x => lm_pow L x (f64_of 1 (-1));
  nrsqrt := fun x => lm_pow L x (f64_of (-1) (-1));
  npow := lm_pow L
|}.
Definition Ufuncs_f64 (L : Libm) : Ufuncs f64 :=
  mkUfuncs (lm_ln L) (lm_max L) (lm_sin L) (lm_cos L) (lm_arctan2 L).

(** A call with floats. *)
Definition run_f64 (L : Libm) (f : fn) (args : list f64) : res (list f64) :=
  run (NA := NumF64 L) (Ufuncs_f64 L) f args.

(** A C library that rounds every power once more than necessary, and
    np.maximum (NaN if either argument is): used by the concrete cases. *)
Definition f64_max (x y : f64) : f64 :=
  match Bcompare x y with Some Lt => y | Some _ => x | None => B754_nan end.
Definition pow_by_sqrt (x y : f64) : f64 :=
  match Bcompare y (f64_of 2 0), Bcompare y (f64_of 1 (-1)), Bcompare y (f64_of (-1) (-1)) with
  | Some Eq, _, _ => Bmult mode_NE x x
  | _, Some Eq, _ => Bsqrt mode_NE x
  | _, _, Some Eq => Bdiv mode_NE (f64_of 1 0) (Bsqrt mode_NE x)
  | _, _, _ => B754_nan
  end.
Definition libm_by_sqrt : Libm :=
  mkLibm pow_by_sqrt (fun _ => B754_nan) f64_max (fun _ => B754_nan) (fun _ => B754_nan) (fun _ _ => B754_nan).
