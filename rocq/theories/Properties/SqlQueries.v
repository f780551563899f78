(** C86: models called with SQL columns. *)

From Coq Require Import ZArith Bool String List Reals Lra Lia.
From Verif Require Import Model.Num Model.Py Model.Dists Model.Models Model.Table Model.PyNum Model.Sql.
From Verif Require Import Spec.SqlReading.
From Verif Require Import Proofs.SqlValues Proofs.SqlFaults.
Import ListNotations.
Open Scope R_scope.
Open Scope string_scope.

(** C86: every text PyPika renders for a parameter, read back with the precedence and
    associativity of SQL, has the value the model function computes from the values of the inputs. *)
Theorem C86_text_means_the_model :
  forall (arctan2 : R -> R -> R) (row : string -> option num) (f : fn) (args : list (value (res R))) (xs ys : list R),
  Forall2 (reads_as arctan2 row) args xs -> run_py arctan2 f xs = Ok ys ->
  exists out, run (NA := NumSql (NC := NumPy)) Ufuncs_sql f args = Ok out /\
  Forall2 (fun v y => no_comment (text (wrap v)) ->
    option_map real (column arctan2 false row (text (wrap v))) = Some y) out ys.
Proof. exact sql_forward. Qed.

(** docs/examples/generalized-inputs.md *)
Definition docs_row (c : string) : option num :=
  if String.eqb c "total" then Some (SInt 10) else if String.eqb c "successes" then Some (SInt 4) else None.
Example C86_case :
  Forall2 (reads_as (fun _ _ => 0) docs_row) [Sql (Col "total"); Sql (Col "successes"); Py (PyInt 1); Py (PyInt 1)] [10; 4; 1; 1] /\
  run_py (fun _ _ => 0) F_binomial_beta [10; 4; 1; 1] = Ok [1 + 4; 1 + (10 - 4)] /\
  exists v, run (NA := NumSql (NC := NumPy)) Ufuncs_sql F_binomial_beta [Sql (Col "total"); Sql (Col "successes"); Py (PyInt 1); Py (PyInt 1)]
    = Ok [Sql (Arith Add (Val (PyInt 1)) (Col "successes")); v] /\
  text (wrap v) = [TNum (PyInt 1); TOp Add; TCol "total"; TOp Sub; TCol "successes"] /\ no_comment (text (wrap v)).
Proof.
  split; [repeat (apply Forall2_cons || apply Forall2_nil); split; reflexivity || (simpl; tauto)|].
  split; [reflexivity|]. eexists. split; [reflexivity|]. split; [reflexivity|]. simpl. tauto.
Qed.

Print Assumptions C86_text_means_the_model.

(** C86: and the query returns NULL or fails only where the Python call would raise. *)
Theorem C86_only_the_model :
  forall (arctan2 : R -> R -> R) (row : string -> option num) (f : fn) (args : list (value (res R))) (xs : list R)
    (out : list (value (res R))) (ys : list R),
  Forall2 (reads_as arctan2 row) args xs ->
  run (NA := NumSql (NC := NumPy)) Ufuncs_sql f args = Ok out -> Forall2 (reads_as arctan2 row) out ys ->
  run_py arctan2 f xs = Ok ys.
Proof. exact sql_backward. Qed.

Example C86_only_case :
  Forall2 (reads_as (fun _ _ => 0) docs_row) [Sql (Col "successes"); Sql (Col "total")] [4; 10] /\
  exists out, run (NA := NumSql (NC := NumPy)) Ufuncs_sql F_Beta_from_mean [Sql (Col "successes"); Sql (Col "total")] = Ok out /\
  Forall2 (reads_as (fun _ _ => 0) docs_row) out [10; 10 * (1 - 4) / 4].
Proof.
  split; [repeat (apply Forall2_cons || apply Forall2_nil); split; reflexivity || (simpl; tauto)|].
  eexists. split; [reflexivity|]. repeat (apply Forall2_cons || apply Forall2_nil); (split; [simpl; tauto|]).
  - reflexivity.
  - unfold column. simpl. destruct (Req_EM_T 4 0); [lra|]. simpl. f_equal. lra.
Qed.

Print Assumptions C86_only_the_model.

(** C86: the query of docs/examples/sql.md returns the predictive of the posterior, in
    every group and for every prior given by Python numbers. *)
Theorem C86_sales_query :
  forall (arctan2 : R -> R -> R) (row : string -> option num) (cx cx2 cn : string) (mu nu alpha beta : pynum (res R))
    (x x2 n m u a b : R) (post ys : list R),
  Forall2 (reads_as arctan2 row)
    [Sql (Col cx); Sql (Col cx2); Sql (Col cn); Py mu; Py nu; Py alpha; Py beta] [x; x2; n; m; u; a; b] ->
  run_py arctan2 F_normal_nig [x; x2; n; m; a; b; u] = Ok post ->
  run_py arctan2 F_normal_predictive_nig post = Ok ys ->
  exists out, sales_query (NC := NumPy) (Sql (Col cx)) (Sql (Col cx2)) (Sql (Col cn)) (Py mu) (Py nu) (Py alpha) (Py beta) = Ok out /\
  Forall2 (reads_as arctan2 row) out ys.
Proof. exact sales_query_ok. Qed.

Definition sales_row (c : string) : option num :=
  if String.eqb c "SUM(sales)" then Some (SInt 6) else if String.eqb c "SUM(POW(sales,2))" then Some (SInt 20)
  else if String.eqb c "COUNT(*)" then Some (SInt 3) else None.
Example C86_sales_case :
  Forall2 (reads_as (fun _ _ => 0) sales_row)
    [Sql (Col "SUM(sales)"); Sql (Col "SUM(POW(sales,2))"); Sql (Col "COUNT(*)"); Py (PyInt 0);
     Py (PyFloat (Ok (1 / 10))); Py (PyFloat (Ok (1 / 10))); Py (PyInt 1)] [6; 20; 3; 0; 1 / 10; 1 / 10; 1] /\
  exists post ys, run_py (fun _ _ => 0) F_normal_nig [6; 20; 3; 0; 1 / 10; 1; 1 / 10] = Ok post /\
  run_py (fun _ _ => 0) F_normal_predictive_nig post = Ok ys.
Proof.
  split; [repeat (apply Forall2_cons || apply Forall2_nil); split; reflexivity || (simpl; tauto)|].
  do 2 eexists. split.
  - unfold run_py. cbn -[Rdiv Rinv pow]. unfold py_div. destruct (Req_EM_T 3 0); [lra|]. destruct (Req_EM_T 2 0); [lra|].
    cbn -[Rdiv Rinv pow]. destruct (Req_EM_T (1 / 10 + 3) 0); [lra|]. reflexivity.
  - unfold run_py. cbn -[Rdiv Rinv]. unfold py_div.
    destruct (Req_EM_T _ 0) as [E|_]; [exfalso; lra|]. cbn -[Rdiv Rinv]. unfold py_sqrt.
    match goal with |- context [Rlt_dec ?x 0] => destruct (Rlt_dec x 0) as [L|_] end; [exfalso|reflexivity].
    revert L. apply Rle_not_lt.
    match goal with |- 0 <= ?x => assert (E : x = (1 + / 2 * (20 - 36 / (31/10))) * (41 / 10) / ((31 / 10) * (16 / 10))) by field; rewrite E end.
    lra.
Qed.

Print Assumptions C86_sales_query.

(** C86: in a dialect whose [/] truncates the quotient of two integers the text still means the
    model when no input column is of an integer type ... *)
Theorem C86_float_columns :
  forall (arctan2 : R -> R -> R) (row : string -> option num) (f : fn) (args out : list (value (res R))),
  Forall (float_arg row) args -> run (NA := NumSql (NC := NumPy)) Ufuncs_sql f args = Ok out ->
  Forall (fun v => no_comment (text (wrap v)) ->
    column arctan2 true row (text (wrap v)) = column arctan2 false row (text (wrap v))) out.
Proof. exact sql_float_columns. Qed.

Example C86_float_case :
  Forall (float_arg (fun _ => Some (SFlt 3))) [Sql (Col "x"); Sql (Col "x2"); Sql (Col "n"); Py (PyInt 2); Py (PyInt 1); Py (PyInt 1)].
Proof. repeat (apply Forall_cons || apply Forall_nil); simpl; auto; discriminate. Qed.

Print Assumptions C86_float_columns.

(** C86: ... and not otherwise: in the query of docs/examples/sql.md the degrees of freedom of
    every group with an odd number of events are one too few. *)
Theorem C86_integer_division_refuted :
  forall (arctan2 : R -> R -> R) (row : string -> option num) (cx cx2 cn : string) (n : Z),
  row cn = Some (SInt n) -> (0 <= n)%Z ->
  exists mu sigma nu,
  sales_query (NC := NumPy) (Sql (Col cx)) (Sql (Col cx2)) (Sql (Col cn))
    (Py (PyInt 0)) (Py (PyFloat (Ok (1 / 10)))) (Py (PyFloat (Ok (1 / 10)))) (Py (PyInt 1)) = Ok [mu; sigma; nu] /\
  option_map real (column arctan2 false row (text (wrap nu))) = Some (2 / 10 + IZR n) /\
  option_map real (column arctan2 true row (text (wrap nu)))
    = Some (if Z.even n then 2 / 10 + IZR n else 2 / 10 + IZR n - 1).
Proof. exact sales_query_integer. Qed.

Example C86_integer_case : sales_row "COUNT(*)" = Some (SInt 3) /\ Z.even 3 = false.
Proof. split; reflexivity. Qed.

Print Assumptions C86_integer_division_refuted.

(** C86: with a negative known mean, the text of the posterior of normal_known_mean contains two
    adjacent minus signs; the rest of the line is a comment and the query is malformed, though
    the Python call with the same numbers returns. *)
Theorem C86_negative_constant_refuted :
  forall (arctan2 : R -> R -> R) (row : string -> option num) (integer_division : bool) (mu alpha beta : pynum (res R)),
  negative mu = true ->
  exists a b, run (NA := NumSql (NC := NumPy)) Ufuncs_sql F_normal_known_mean_ig
    [Sql (Col "x"); Sql (Col "x2"); Sql (Col "n"); Py mu; Py alpha; Py beta] = Ok [a; b] /\
  read negative (text (wrap b)) = None /\ column arctan2 integer_division row (text (wrap b)) = None.
Proof. exact known_mean_comment. Qed.

Example C86_negative_case : negative (PyInt (-1)) = true /\ negative (PyFloat (Ok (- (1)))) = true /\
  run_py (fun _ _ => 0) F_normal_known_mean_ig [4; 6; 3; - (1); 1; 1] = Ok [1 + 3 / 2; 1 + / 2 * (6 - 2 * - (1) * 4 + 3 * (- (1)) ^ 2)].
Proof.
  split; [reflexivity|]. split; [unfold negative; simpl; destruct (Rlt_dec (- (1)) 0); [reflexivity|lra]|]. apply known_mean_returns.
Qed.

Print Assumptions C86_negative_constant_refuted.
