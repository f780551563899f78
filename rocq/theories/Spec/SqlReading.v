(** How a database reads and evaluates an arithmetic SQL expression. *)

From Coq Require Import ZArith Bool List String Reals.
From Verif Require Import Model.Num Model.Py Model.Sql.
Import ListNotations.
Open Scope string_scope.

(** ** Reading *)

(** A parsed expression, over numbers of type [N]. *)
Inductive sqlexp (N : Type) :=
| SNum (n : N) | SCol (c : string) | SBin (o : binop) (a b : sqlexp N)
| SCall1 (f : string) (a : sqlexp N) | SCall2 (f : string) (a b : sqlexp N).
Arguments SNum {N}. Arguments SCol {N}. Arguments SBin {N}. Arguments SCall1 {N}. Arguments SCall2 {N}.

Section Read.
Context {C : Type}.
Notation exp := (sqlexp (pynum C)).

(** What opened the expression being read. *)
Inductive opening := Group | InCall (f : string) | InCall2 (f : string) (first : exp).
(** An unfinished expression: [left +] or [left -] of the sum, [left *] or [left /] of the
    current product. *)
Record frame := mkFrame { f_open : opening; f_sum : option (exp * binop); f_prod : option (exp * binop) }.
Definition start (o : opening) : frame := mkFrame o None None.

Definition pending (p : option (exp * binop)) (a : exp) : exp :=
  match p with None => a | Some (l, o) => SBin o l a end.
(** The product, and the whole sum, when [a] is its last operand: operators of equal
    precedence associate to the left, and [* /] bind tighter than [+ -]. *)
Definition close_product (f : frame) (a : exp) : exp := pending (f_prod f) a.
Definition close_sum (f : frame) (a : exp) : exp := pending (f_sum f) (close_product f a).

(** Left-to-right reading; [cur] is the operand just read. *)
Fixpoint read_from (toks : list (token C)) (outer : list frame) (f : frame) (cur : option exp) : option exp :=
  match toks with
  | [] => match outer, cur with [], Some a => Some (close_sum f a) | _, _ => None end
  | tok :: toks =>
    match tok, cur with
    | TNum p, None => read_from toks outer f (Some (SNum p))
    | TCol c, None => read_from toks outer f (Some (SCol c))
    | TOpen, None => read_from toks (f :: outer) (start Group) None
    | TCall g, None => read_from toks (f :: outer) (start (InCall g)) None
    | TOp o, Some a =>
        if additive o
        then read_from toks outer (mkFrame (f_open f) (Some (close_sum f a, o)) None) None
        else read_from toks outer (mkFrame (f_open f) (f_sum f) (Some (close_product f a, o))) None
    | TComma, Some a =>
        match f_open f with
        | InCall g => read_from toks outer (start (InCall2 g (close_sum f a))) None
        | _ => None
        end
    | TClose, Some a =>
        match outer with
        | [] => None
        | g :: outer =>
            read_from toks outer g (Some (match f_open f with
                                          | Group => close_sum f a
                                          | InCall h => SCall1 h (close_sum f a)
                                          | InCall2 h x => SCall2 h x (close_sum f a)
                                          end))
        end
    | _, _ => None
    end
  end.

(** Two adjacent minus signs start a comment that runs to the end of the line. *)
Fixpoint strip_comment (neg : pynum C -> bool) (toks : list (token C)) : list (token C) :=
  match toks with
  | TOp Sub :: rest =>
      match rest with
      | TNum p :: _ => if neg p then [] else TOp Sub :: strip_comment neg rest
      | _ => TOp Sub :: strip_comment neg rest
      end
  | tok :: rest => tok :: strip_comment neg rest
  | [] => []
  end.

(** [None] is a syntax error. *)
Definition read (neg : pynum C -> bool) (toks : list (token C)) : option exp :=
  read_from (strip_comment neg toks) [] (start Group) None.
End Read.
Arguments opening C : clear implicits.
Arguments frame C : clear implicits.

(** ** Evaluation *)

Open Scope R_scope.

(** A SQL number. *)
Inductive num := SInt (z : Z) | SFlt (r : R).
Definition real (x : num) : R := match x with SInt z => IZR z | SFlt r => r end.

(** A constant in the text: an integer literal or a float literal. *)
Definition literal (p : pynum (res R)) : option num :=
  match p with PyInt z => Some (SInt z) | PyFloat (Ok r) => Some (SFlt r) | PyFloat (Raise _) => None end.
Definition negative (p : pynum (res R)) : bool :=
  match literal p with
  | Some (SInt z) => Z.ltb z 0
  | Some (SFlt r) => if Rlt_dec r 0 then true else false
  | None => false
  end.

(** POWER: undefined for 0 to a negative power and for a negative number to a power that is
    not an integer. *)
Definition sql_pow (a b : R) : option R :=
  if Rlt_dec 0 a then Some (Rpower a b)
  else if Rlt_dec a 0 then
    if Req_EM_T b (IZR (Int_part b)) then Some (powerRZ a (Int_part b)) else None
  else if Rlt_dec 0 b then Some 0 else if Req_EM_T b 0 then Some 1 else None.

Definition opt2 {A B D} (f : A -> B -> option D) (a : option A) (b : option B) : option D :=
  match a, b with Some a, Some b => f a b | _, _ => None end.

(** [+ - *] of two integers is an integer.  So is [/] in a dialect with integer division
    (PostgreSQL, SQLite, SQL Server); in the others (MySQL, Oracle, DuckDB) it is the quotient. *)
Definition sql_op (integer_division : bool) (o : binop) (a b : num) : option num :=
  match o, a, b with
  | Add, SInt x, SInt y => Some (SInt (x + y)) | Add, _, _ => Some (SFlt (real a + real b))
  | Sub, SInt x, SInt y => Some (SInt (x - y)) | Sub, _, _ => Some (SFlt (real a - real b))
  | Mul, SInt x, SInt y => Some (SInt (x * y)) | Mul, _, _ => Some (SFlt (real a * real b))
  | Div, _, _ =>
      if Req_EM_T (real b) 0 then None else
      match integer_division, a, b with
      | true, SInt x, SInt y => Some (SInt (Z.quot x y))
      | _, _, _ => Some (SFlt (real a / real b))
      end
  end.

Section Eval.
Variable arctan2 : R -> R -> R.
Variable integer_division : bool.
(** The row, or the group: the value of each column or aggregate, [None] for NULL. *)
Variable row : string -> option num.

Definition sql_call1 (f : string) (a : num) : option num :=
  if String.eqb f "LN" then if Rlt_dec 0 (real a) then Some (SFlt (ln (real a))) else None
  else if String.eqb f "SIN" then Some (SFlt (sin (real a)))
  else if String.eqb f "COS" then Some (SFlt (cos (real a))) else None.
Definition sql_call2 (f : string) (a b : num) : option num :=
  if String.eqb f "POW" then option_map SFlt (sql_pow (real a) (real b))
  else if String.eqb f "GREATEST" then Some (SFlt (Rmax (real a) (real b)))
  else if String.eqb f "ATAN2" then Some (SFlt (arctan2 (real a) (real b))) else None.

Fixpoint sql_eval (e : sqlexp (pynum (res R))) : option num :=
  match e with
  | SNum p => literal p
  | SCol c => row c
  | SBin o a b => opt2 (sql_op integer_division o) (sql_eval a) (sql_eval b)
  | SCall1 f a => match sql_eval a with Some x => sql_call1 f x | None => None end
  | SCall2 f a b => opt2 (sql_call2 f) (sql_eval a) (sql_eval b)
  end.

(** What the query returns for a column with this text. *)
Definition column (toks : list (token (res R))) : option num :=
  match read negative toks with Some e => sql_eval e | None => None end.
End Eval.

(** No minus sign directly in front of a negative constant. *)
Fixpoint no_comment (toks : list (token (res R))) : Prop :=
  match toks with
  | tok :: rest => (match tok, rest with TOp Sub, TNum p :: _ => negative p = false | _, _ => True end) /\ no_comment rest
  | [] => True
  end.

(** A model input or output whose text has the real value [x] in this row (real division). *)
Definition reads_as (arctan2 : R -> R -> R) (row : string -> option num) (v : value (res R)) (x : R) : Prop :=
  no_comment (text (wrap v)) /\ option_map real (column arctan2 false row (text (wrap v))) = Some x.

(** A Python number, or a column that is not of an integer type. *)
Definition float_arg (row : string -> option num) (v : value (res R)) : Prop :=
  match v with Py _ => True | Sql (Col c) => forall z, row c <> Some (SInt z) | _ => False end.
