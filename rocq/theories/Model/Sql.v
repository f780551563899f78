(** SQL columns as inputs: docs/examples/sql.md and docs/examples/generalized-inputs.md:42-82.
    The model functions are called with PyPika terms; the parameters they return are
    rendered as SQL text.  PyPika is not part of /repo: its behaviour is modelled here from
    the texts printed in those two documents (Tests/SqlText.v reproduces them), and is part
    of the trusted base of the theorems about SQL. *)

From Coq Require Import ZArith Bool List String.
From Verif Require Import Model.Num Model.Py Model.Dists Model.Models Model.Table.
Import ListNotations.
Open Scope string_scope.

Inductive binop := Add | Sub | Mul | Div.
(** Lowest precedence. *)
Definition additive (o : binop) : bool := match o with Add | Sub => true | _ => false end.

Section Sql.
(** Floats of type [C]. *)
Context {C : Type} {NC : Num C}.

(** A Python number: an int, or a float.  Simplification: a constant expression that
    Python refuses (a division by zero) is carried as a constant that has no value. *)
Inductive pynum := PyInt (z : Z) | PyFloat (c : C).
Definition float (p : pynum) : C := match p with PyInt z => nlit z | PyFloat c => c end.

(** A PyPika term: a column or aggregate, a wrapped constant, an ArithmeticExpression, a Function. *)
Inductive term :=
| Col (name : string)
| Val (p : pynum)
| Arith (o : binop) (a b : term)
| Call1 (f : string) (a : term)
| Call2 (f : string) (a b : term).

(** What a model function is called with. *)
Inductive value := Py (p : pynum) | Sql (t : term).
Definition wrap (v : value) : term := match v with Py p => Val p | Sql t => t end.

(** [+ - * /] between two Python numbers is computed by Python ... *)
Definition py_arith (o : binop) (a b : pynum) : pynum :=
  match o, a, b with
  | Add, PyInt x, PyInt y => PyInt (x + y)
  | Sub, PyInt x, PyInt y => PyInt (x - y)
  | Mul, PyInt x, PyInt y => PyInt (x * y)
  | Add, _, _ => PyFloat (nadd (float a) (float b))
  | Sub, _, _ => PyFloat (nsub (float a) (float b))
  | Mul, _, _ => PyFloat (nmul (float a) (float b))
  | Div, _, _ => PyFloat (ndiv (float a) (float b))
  end.
(** ... and otherwise recorded. *)
Definition arith (o : binop) (a b : value) : value :=
  match a, b with
  | Py p, Py q => Py (py_arith o p q)
  | _, _ => Sql (Arith o (wrap a) (wrap b))
  end.

(** [term ** exponent] is the function POW. *)
Definition power (py : pynum -> pynum) (exponent : pynum) (a : value) : value :=
  match a with Py p => Py (py p) | Sql t => Sql (Call2 "POW" t (Val exponent)) end.

Definition NumSql : Num value := {|
  nadd := arith Add; nsub := arith Sub; nmul := arith Mul; ndiv := arith Div;
  nlit := fun z => Py (PyInt z); nhalf := Py (PyFloat nhalf);
  nsq := power (fun p => match p with PyInt z => PyInt (z * z) | PyFloat c => PyFloat (nsq c) end) (PyInt 2);
  nsqrt := power (fun p => PyFloat (nsqrt (float p))) (PyFloat nhalf);
  nrsqrt := power (fun p => PyFloat (nrsqrt (float p))) (PyFloat (nsub (nlit 0) nhalf));
  npow := fun a b => match a, b with
                     | Py p, Py q => Py (PyFloat (npow (float p) (float q)))
                     | _, _ => Sql (Call2 "POW" (wrap a) (wrap b))
                     end
|}.

(** The functions a caller passes for [ln], [max_fn], ... when the data are SQL columns. *)
Definition Ufuncs_sql : Ufuncs value :=
  mkUfuncs (fun a => Sql (Call1 "LN" (wrap a))) (fun a b => Sql (Call2 "GREATEST" (wrap a) (wrap b)))
           (fun a => Sql (Call1 "SIN" (wrap a))) (fun a => Sql (Call1 "COS" (wrap a)))
           (fun a b => Sql (Call2 "ATAN2" (wrap a) (wrap b))).

(** ** Rendering *)

Inductive token :=
| TNum (p : pynum) | TCol (name : string) | TOp (o : binop)
| TOpen | TClose | TCall (f : string) (* "f(" *) | TComma.

Definition operator (t : term) : option binop := match t with Arith o _ _ => Some o | _ => None end.

(** Parentheses around the left operand: only around a sum in a product or a quotient. *)
Definition left_needs_parens (o : binop) (left_op : option binop) : bool :=
  match left_op with
  | None => false
  | Some l => if additive o then false else additive l
  end.
(** Around the right operand: never after [+], always after [/], around a sum after [-] or [*]. *)
Definition right_needs_parens (o : binop) (right_op : option binop) : bool :=
  match right_op with
  | None => false
  | Some r => match o with Add => false | Div => true | _ => additive r end
  end.
Definition parens (b : bool) (l : list token) : list token := if b then TOpen :: l ++ [TClose] else l.

(** [str(term)]. *)
Fixpoint text (t : term) : list token :=
  match t with
  | Col c => [TCol c]
  | Val p => [TNum p]
  | Arith o a b =>
      parens (left_needs_parens o (operator a)) (text a) ++ TOp o ::
      parens (right_needs_parens o (operator b)) (text b)
  | Call1 f a => TCall f :: text a ++ [TClose]
  | Call2 f a b => TCall f :: text a ++ TComma :: text b ++ [TClose]
  end.

(** docs/examples/sql.md:50-58: the posterior predictive of [normal], from the sums. *)
Definition sales_query (x_total x2_total n mu nu alpha beta : value) : res (list value) :=
  let* posterior := run (NA := NumSql) Ufuncs_sql F_normal_nig [x_total; x2_total; n; mu; alpha; beta; nu] in
  run (NA := NumSql) Ufuncs_sql F_normal_predictive_nig posterior.
End Sql.
Arguments pynum C : clear implicits.
Arguments term C : clear implicits.
Arguments value C : clear implicits.
Arguments token C : clear implicits.
