(** The SQL texts printed in the documentation, reproduced. *)

From Coq Require Import ZArith QArith Bool String List.
From Verif Require Import Model.Num Model.Py Model.Table Model.Sql.
Import ListNotations.
Open Scope string_scope.

(** Decimal constants as fractions; the documents take no root of a constant. *)
Definition NumQ : Num Q := {|
  nadd := fun a b => Qred (a + b); nsub := fun a b => Qred (a - b); nmul := fun a b => Qred (a * b);
  ndiv := fun a b => Qred (a / b); nlit := inject_Z; nhalf := 1 # 2; nsq := fun a => Qred (a * a);
  nsqrt := fun a => a; nrsqrt := fun a => a; npow := fun a _ => a
|}.
Definition texts (r : res (list (value Q))) : list (list (token Q)) :=
  match r with Ok l => map (fun v => text (wrap v)) l | Raise _ => [] end.
Notation "'int' z" := (TNum (PyInt z)) (at level 0, z at level 0).
Notation "'flt' q" := (TNum (PyFloat q)) (at level 0, q at level 0).
Notation "'col' c" := (TCol c) (at level 0, c at level 0).

(** docs/examples/generalized-inputs.md:53-61 *)
Example generalized_inputs :
  texts (run (NA := NumSql (NC := NumQ)) Ufuncs_sql F_binomial_beta
    [Sql (Col "total"); Sql (Col "successes"); Py (PyInt 1); Py (PyInt 1)])
  = [[int 1; TOp Add; col "successes"]; [int 1; TOp Add; col "total"; TOp Sub; col "successes"]].
Proof. reflexivity. Qed.

(** docs/examples/generalized-inputs.md:66-76 *)
Example generalized_priors :
  texts (run (NA := NumSql (NC := NumQ)) Ufuncs_sql F_binomial_beta
    [Sql (Col "total"); Sql (Col "successes");
     arith (NC := NumQ) Sub (Sql (Col "previous_successes")) (Py (PyInt 1));
     arith (NC := NumQ) Sub (Sql (Col "previous_failures")) (Py (PyInt 1))])
  = [[col "previous_successes"; TOp Sub; int 1; TOp Add; col "successes"];
     [col "previous_failures"; TOp Sub; int 1; TOp Add; col "total"; TOp Sub; col "successes"]].
Proof. reflexivity. Qed.

(** docs/examples/sql.md:75-78 *)
Definition count : token Q := col "COUNT(*)".
Definition sales : token Q := col "SUM(sales)".
Definition tenth : token Q := flt (1 # 10).
Definition mu_text : list (token Q) :=
  [TOpen; flt 0; TOp Add; count; TOp Mul; sales; TOp Div; count; TClose; TOp Div; TOpen; tenth; TOp Add; count; TClose].
Example sales_query_text :
  texts (sales_query (NC := NumQ) (Sql (Col "SUM(sales)")) (Sql (Col "SUM(POW(sales,2))")) (Sql (Col "COUNT(*)"))
    (Py (PyInt 0)) (Py (PyFloat (1 # 10))) (Py (PyFloat (1 # 10))) (Py (PyInt 1)))
  = [mu_text;
     [TCall "POW"; TOpen; int 1; TOp Add; flt (1 # 2); TOp Mul; TOpen; flt 0; TOp Add; col "SUM(POW(sales,2))"; TOp Sub;
      TCall "POW"] ++ mu_text ++ [TComma; int 2; TClose; TOp Mul; TOpen; tenth; TOp Add; count; TClose; TClose; TClose;
      TOp Mul; TOpen; tenth; TOp Add; count; TOp Add; int 1; TClose; TOp Div;
      TOpen; TOpen; tenth; TOp Add; count; TClose; TOp Mul; TOpen; tenth; TOp Add; count; TOp Div; int 2; TClose; TClose;
      TComma; flt (1 # 2); TClose];
     [int 2; TOp Mul; TOpen; tenth; TOp Add; count; TOp Div; int 2; TClose]]%list.
Proof. reflexivity. Qed.
