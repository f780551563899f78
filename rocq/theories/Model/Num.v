(** The numeric interface used by /repo/conjugate.

    [conjugate/_typing.py:4-19] declares the protocol NUMERIC: the operators
    [+ - * /] (and their reflected versions).  The code additionally uses the
    powers [x ** 2], [x ** 0.5], [x ** -0.5] and, in [Weibull.dist],
    [x ** y]; and it mixes in the literals 1, 2 and 0.5.  Every model function
    is written once over this interface, exactly as the Python source is, and
    instantiated at several types (reals, error-carrying reals, symbolic
    expressions, broadcasting arrays). *)

From Coq Require Import ZArith Reals.

(** [conjugate/_typing.py:4-19] (NUMERIC), plus [**] and the literals.
    Simplification: the exponents 2, 0.5 and -0.5 are separate operations, because
    [**] with a literal exponent is not the same partial function as the general power. *)
Class Num (A : Type) := {
  nadd : A -> A -> A;      (* __add__ / __radd__ *)
  nsub : A -> A -> A;      (* __sub__ / __rsub__ *)
  nmul : A -> A -> A;      (* __mul__ / __rmul__ *)
  ndiv : A -> A -> A;      (* __truediv__ / __rtruediv__ *)
  nlit : Z -> A;           (* an integer literal in the source *)
  nhalf : A;               (* the literal 0.5 *)
  nsq : A -> A;            (* x ** 2 *)
  nsqrt : A -> A;          (* x ** 0.5 *)
  nrsqrt : A -> A;         (* x ** -0.5 *)
  npow : A -> A -> A       (* x ** y *)
}.

Declare Scope num_scope.
Delimit Scope num_scope with num.
Infix "+" := nadd : num_scope.
Infix "-" := nsub : num_scope.
Infix "*" := nmul : num_scope.
Infix "/" := ndiv : num_scope.

(** Real numbers: the ideal arithmetic.  Division by zero and square roots of
    negative numbers are totalised here; the instance [NumPy] of
    [Model/PyNum.v] raises instead, and the theorems say when the two agree. *)
#[export] Instance NumR : Num R := {|
  nadd := Rplus; nsub := Rminus; nmul := Rmult; ndiv := Rdiv;
  nlit := IZR; nhalf := (/ 2)%R;
  nsq := (fun x => x ^ 2)%R;
  nsqrt := sqrt;
  nrsqrt := (fun x => / sqrt x)%R;
  npow := Rpower
|}.
