(** Number-like inputs: expression objects (SQL columns, pymc / polars
    expressions, ...) that record the operators applied to them. *)

From Coq Require Import ZArith Bool List String Reals.
From Verif Require Import Model.Num Model.Py Model.Table.
Import ListNotations.

(** Column [v], literals, and the operators of _typing.py:4-19 plus [**]. *)
Inductive expr :=
| EVar (v : nat) | ELit (z : Z) | EHalf
| EAdd (a b : expr) | ESub (a b : expr) | EMul (a b : expr) | EDiv (a b : expr)
| ESq (a : expr) | ESqrt (a : expr) | ERsqrt (a : expr) | EPow (a b : expr)
| ELn (a : expr) | EMax (a b : expr) | ESin (a : expr) | ECos (a : expr) | EArctan2 (a b : expr).

#[export] Instance NumExpr : Num expr := {|
  nadd := EAdd; nsub := ESub; nmul := EMul; ndiv := EDiv; nlit := ELit; nhalf := EHalf;
  nsq := ESq; nsqrt := ESqrt; nrsqrt := ERsqrt; npow := EPow
|}.
Definition Ufuncs_expr : Ufuncs expr := mkUfuncs ELn EMax ESin ECos EArctan2.

(** The database evaluates an expression in a row, with numbers of type [A]. *)
Fixpoint eval {A} {NA : Num A} (U : Ufuncs A) (row : nat -> A) (e : expr) : A :=
  match e with
  | EVar v => row v | ELit z => nlit z | EHalf => nhalf
  | EAdd a b => nadd (eval U row a) (eval U row b) | ESub a b => nsub (eval U row a) (eval U row b)
  | EMul a b => nmul (eval U row a) (eval U row b) | EDiv a b => ndiv (eval U row a) (eval U row b)
  | ESq a => nsq (eval U row a) | ESqrt a => nsqrt (eval U row a) | ERsqrt a => nrsqrt (eval U row a)
  | EPow a b => npow (eval U row a) (eval U row b)
  | ELn a => u_ln U (eval U row a) | EMax a b => u_max U (eval U row a) (eval U row b)
  | ESin a => u_sin U (eval U row a) | ECos a => u_cos U (eval U row a)
  | EArctan2 a b => u_arctan2 U (eval U row a) (eval U row b)
  end.
