(** The query of the documentation, and two ways a rendered query can go wrong. *)

From Coq Require Import ZArith Bool List String Reals Lra Lia.
From Verif Require Import Model.Num Model.Py Model.Dists Model.Models Model.Table Model.PyNum Model.Sql.
From Verif Require Import Spec.SqlReading Proofs.Param Proofs.PyNum Proofs.SqlReading Proofs.SqlValues.
Import ListNotations.
Open Scope list_scope.
Open Scope R_scope.
Open Scope string_scope.

Section Docs.
Variable arctan2 : R -> R -> R.
Variable row : string -> option num.
Notation reads := (reads_as arctan2 row).

Lemma reads_all out ys :
  Forall (fun v => no_comment (text (wrap v))) out ->
  Forall2 (fun v y => no_comment (text (wrap v)) -> option_map real (column arctan2 false row (text (wrap v))) = Some y) out ys ->
  Forall2 reads out ys.
Proof.
  intros N F. induction F as [|v y out ys H F IH]; constructor.
  - inversion N; subst. split; auto.
  - apply IH. now inversion N.
Qed.

(** docs/examples/sql.md, for any prior given by Python numbers. *)
Lemma sales_query_ok cx cx2 cn mu nu alpha beta x x2 n m u a b post ys :
  Forall2 reads [Sql (Col cx); Sql (Col cx2); Sql (Col cn); Py mu; Py nu; Py alpha; Py beta] [x; x2; n; m; u; a; b] ->
  run_py arctan2 F_normal_nig [x; x2; n; m; a; b; u] = Ok post ->
  run_py arctan2 F_normal_predictive_nig post = Ok ys ->
  exists out, sales_query (NC := NumPy) (Sql (Col cx)) (Sql (Col cx2)) (Sql (Col cn)) (Py mu) (Py nu) (Py alpha) (Py beta) = Ok out /\
  Forall2 reads out ys.
Proof.
  intros H E1 E2.
  destruct (sql_forward arctan2 row F_normal_nig
    [Sql (Col cx); Sql (Col cx2); Sql (Col cn); Py mu; Py alpha; Py beta; Py nu] [x; x2; n; m; a; b; u] post)
    as (out1 & R1 & F1); [|exact E1|].
  { repeat match goal with H : Forall2 _ _ _ |- _ => inversion H; clear H; subst end.
    repeat (apply Forall2_cons || apply Forall2_nil); assumption. }
  assert (N1 : Forall2 reads out1 post).
  { apply reads_all; [|exact F1]. injection R1 as <-.
    repeat (apply Forall_cons || apply Forall_nil); cbn -[py_arith Rinv negative]; repeat split. }
  destruct (sql_forward arctan2 row F_normal_predictive_nig _ _ ys N1 E2) as (out2 & R2 & F2).
  exists out2. split.
  - unfold sales_query. rewrite R1. exact R2.
  - apply reads_all; [|exact F2]. injection R1 as <-. injection R2 as <-.
    repeat (apply Forall_cons || apply Forall_nil); cbn -[py_arith Rinv negative]; repeat split.
Qed.

(** Integer division: the degrees of freedom. *)
Lemma sales_query_integer cx cx2 cn n :
  row cn = Some (SInt n) -> (0 <= n)%Z ->
  exists mu sigma nu,
  sales_query (NC := NumPy) (Sql (Col cx)) (Sql (Col cx2)) (Sql (Col cn))
    (Py (PyInt 0)) (Py (PyFloat (Ok (1 / 10)))) (Py (PyFloat (Ok (1 / 10)))) (Py (PyInt 1)) = Ok [mu; sigma; nu] /\
  option_map real (column arctan2 false row (text (wrap nu))) = Some (2 / 10 + IZR n) /\
  option_map real (column arctan2 true row (text (wrap nu))) = Some (if Z.even n then 2 / 10 + IZR n else 2 / 10 + IZR n - 1).
Proof.
  intros H Hn. do 3 eexists. split; [reflexivity|]. unfold column. split.
  - cbn -[Rdiv Rinv Z.even]. rewrite H. cbn -[Rdiv Rinv Z.even]. destruct (Req_EM_T 2 0); [lra|]. cbn -[Rdiv Rinv Z.even]. f_equal. lra.
  - cbn -[Rdiv Rinv Z.even]. rewrite H. cbn -[Rdiv Rinv Z.even Z.quot]. destruct (Req_EM_T 2 0); [lra|].
    cbn -[Rdiv Rinv Z.even Z.quot]. f_equal.
    rewrite Z.quot_div_nonneg by lia. pose proof (Zmod_even n) as M. pose proof (Z.div_mod n 2 ltac:(lia)) as D.
    assert (E : IZR n = 2 * IZR (n / 2) + IZR (n mod 2)) by (rewrite D at 1; now rewrite plus_IZR, mult_IZR).
    rewrite M in E. destruct (Z.even n); simpl in E; lra.
Qed.

(** Two minus signs. *)
Lemma known_mean_comment integer_division mu alpha beta :
  negative mu = true ->
  exists a b, run (NA := NumSql (NC := NumPy)) Ufuncs_sql F_normal_known_mean_ig
    [Sql (Col "x"); Sql (Col "x2"); Sql (Col "n"); Py mu; Py alpha; Py beta] = Ok [a; b] /\
  read negative (text (wrap b)) = None /\ column arctan2 integer_division row (text (wrap b)) = None.
Proof.
  intros H. do 2 eexists. split; [reflexivity|].
  assert (N : negative (py_arith (NC := NumPy) Mul (PyInt 2) mu) = true).
  { unfold negative in *. destruct mu as [z|[r|]]; cbn -[Z.mul] in *; try discriminate.
    - apply Z.ltb_lt in H. apply Z.ltb_lt. lia.
    - destruct (Rlt_dec r 0); [|discriminate]. destruct (Rlt_dec (2 * r) 0); [reflexivity|lra]. }
  assert (E : forall tl, read negative ([TNum beta; TOp Add; TNum (PyFloat (Ok (/ 2))); TOp Mul; TOpen; TCol "x2"; TOp Sub;
     TNum (py_arith (NC := NumPy) Mul (PyInt 2) mu)] ++ tl) = None).
  { intros tl. unfold read. cbn -[py_arith negative Rinv]. now rewrite N. }
  match goal with |- read negative ?l = None /\ _ => assert (G : read negative l = None) end.
  { cbn -[read py_arith negative Rinv]. apply E. }
  split; [exact G|]. unfold column. now rewrite G.
Qed.

Lemma known_mean_returns x x2 n mu a b :
  run_py arctan2 F_normal_known_mean_ig [x; x2; n; mu; a; b] = Ok [a + n / 2; b + / 2 * (x2 - 2 * mu * x + n * mu ^ 2)].
Proof.
  unfold run_py. cbn -[Rdiv Rinv pow]. unfold py_div. destruct (Req_EM_T 2 0); [lra|]. reflexivity.
Qed.
End Docs.
