(** Python numbers that raise: real arithmetic with Python's partial operations.
    [x / 0] raises ZeroDivisionError; [x ** 0.5] of a negative number leaves the
    reals; [x ** -0.5] of zero raises ZeroDivisionError.  Rounding is not modelled. *)

From Coq Require Import ZArith Bool List String Reals.
From Verif Require Import Model.Num Model.Py Model.Table.
Import ListNotations.
Open Scope R_scope.

Definition py1 (f : R -> res R) (a : res R) : res R := bind a f.
Definition py2 (f : R -> R -> res R) (a b : res R) : res R := bind a (fun a => bind b (fun b => f a b)).

Definition py_div (a b : R) : res R := if Req_EM_T b 0 then Raise ZeroDivisionError else Ok (a / b).
Definition py_sqrt (a : R) : res R := if Rlt_dec a 0 then Raise ComplexResult else Ok (sqrt a).
Definition py_rsqrt (a : R) : res R :=
  if Req_EM_T a 0 then Raise ZeroDivisionError else if Rlt_dec a 0 then Raise ComplexResult else Ok (/ sqrt a).
(** Base 0 with a positive exponent is 0, with exponent 0 is 1; a negative base
    with an exponent that is not an integer leaves the reals. *)
Definition py_pow (a b : R) : res R :=
  if Rlt_dec a 0 then
    if Req_EM_T b (IZR (Int_part b)) then Ok (powerRZ a (Int_part b)) else Raise ComplexResult
  else if Req_EM_T a 0 then
    if Rlt_dec b 0 then Raise ZeroDivisionError else if Req_EM_T b 0 then Ok 1 else Ok 0
  else Ok (Rpower a b).

Definition NumPy : Num (res R) := {|
  nadd := py2 (fun a b => Ok (a + b)); nsub := py2 (fun a b => Ok (a - b)); nmul := py2 (fun a b => Ok (a * b));
  ndiv := py2 py_div; nlit := fun z => Ok (IZR z); nhalf := Ok (/ 2);
  nsq := py1 (fun a => Ok (a ^ 2)); nsqrt := py1 py_sqrt; nrsqrt := py1 py_rsqrt; npow := py2 py_pow
|}.

(** math.log raises ValueError for non-positive arguments. *)
Definition py_ln (a : R) : res R := if Rlt_dec 0 a then Ok (ln a) else Raise (ValueError "math domain error").
Definition Ufuncs_py (arctan2 : R -> R -> R) : Ufuncs (res R) :=
  mkUfuncs (py1 py_ln) (py2 (fun a b => Ok (Rmax a b))) (py1 (fun a => Ok (sin a))) (py1 (fun a => Ok (cos a)))
           (py2 (fun a b => Ok (arctan2 a b))).
Definition Ufuncs_R (arctan2 : R -> R -> R) : Ufuncs R := mkUfuncs ln Rmax sin cos arctan2.

(** A call with Python numbers. *)
Definition run_py (arctan2 : R -> R -> R) (f : fn) (args : list R) : res (list R) :=
  bind (run (NA := NumPy) (Ufuncs_py arctan2) f (map Ok args)) (fun out => sequence out).
