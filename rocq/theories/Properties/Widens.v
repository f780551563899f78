(** C89: the regression line of docs/examples/linear-regression.md and its band. *)

From Coq Require Import Reals ZArith Lra List.
From mathcomp Require Import all_ssreflect all_algebra.
From Verif Require Import Model.Num Model.Py Model.Dists Model.Models Model.NdArray Model.MatrixModel Model.DocPrograms.
From Verif Require Import Analysis.RField Spec.Matrices Analysis.Posdef Spec.Arrays Proofs.Arrays Analysis.Regression Proofs.LinReg Proofs.MvNormal Proofs.Widens.
Delimit Scope R_scope with Re.

Set Implicit Arguments.
Unset Strict Implicit.
Unset Printing Implicit Defensive.
Import GRing.Theory.
Local Open Scope ring_scope.

(** C89: with an intercept and one regressor the predictions of the page lie on a straight
    line, and the squared scale of a prediction is a parabola in the new regressor whose lowest
    point is the mean of the old regressors, pulled towards zero (or wherever the off-diagonal
    of the prior precision [P] puts it) by the prior. *)
Theorem C89_prediction_widens :
  forall N M l inv eye ax ay an prior (x ym : 'cV[R]_N) (xn : 'cV[R]_M) (mu : 'cV[R]_2) (Di : 'M[R]_2) (a b : R),
  inverts inv -> makes_eye eye -> holds_vec Flat ax x -> holds_vec l ay ym -> holds_vec Flat an xn ->
  holds_nig l prior mu Di a b -> posdef Di -> (0 < a)%Re -> (0 < b)%Re ->
  let P := invmx Di in
  exists post pred m S nu intercept slope spread,
    linear_regression (create_X ax) ay prior inv = Ok post /\ linear_regression_predictive post (create_X an) eye = Ok pred /\
    holds_mvt l pred m S nu /\ (forall i, m i 0 = (intercept + slope * xn i 0%R)%Re) /\
    (forall i, (0 < S i i)%Re) /\ (0 < spread)%Re /\
    let centre := (((\sum_i x i 0%R) + P 0%R 1%R) / (INR N + P 0%R 0%R))%Re in
    forall i j, (S j j - S i i = spread * ((xn j 0%R - centre) ^ 2 - (xn i 0%R - centre) ^ 2))%Re.
Proof. exact prediction_widens. Qed.

(** The prior of the page, three observations and four predictions. *)
Example C89_case :
  let x : 'cV[R]_3 := \matrix_(i, j) INR i in let xn : 'cV[R]_4 := \matrix_(i, j) INR (i * i) in
  inverts real_inv /\ makes_eye np_eye /\ holds_vec Flat (of_flat x) x /\ holds_vec Flat (of_flat xn) xn /\
  holds_nig Flat (mkNormalInverseGamma (of_flat (0 : 'cV[R]_2)) (scalar 1%Re) (scalar 1%Re) (Some (of_mx (1%:M : 'M[R]_2))) None)
            (0 : 'cV[R]_2) 1%:M 1 1 /\
  posdef (1%:M : 'M[R]_2).
Proof.
  cbv zeta. split; first exact: real_inv_inverts. split; first exact: np_eye_makes_eye.
  split; first exact: of_flat_holds. split; first exact: of_flat_holds. split; last exact: posdef1.
  split; first exact: of_flat_holds. split; first by left. split; first by left. split; first by [].
  eexists. split; first reflexivity. exact: of_mx_holds.
Qed.
Print Assumptions C89_prediction_widens.

(** So of two predictions the one further from the centre is strictly the wider; with the
    unit matrix as prior, as on the page, the centre is the sum of the old regressors over
    one more than their number. *)
Theorem C89_further_is_wider :
  forall N M l inv eye ax ay an prior (x ym : 'cV[R]_N) (xn : 'cV[R]_M) (mu : 'cV[R]_2) (a b : R),
  inverts inv -> makes_eye eye -> holds_vec Flat ax x -> holds_vec l ay ym -> holds_vec Flat an xn ->
  holds_nig l prior mu 1%:M a b -> (0 < a)%Re -> (0 < b)%Re ->
  exists post pred m S nu,
    linear_regression (create_X ax) ay prior inv = Ok post /\ linear_regression_predictive post (create_X an) eye = Ok pred /\
    holds_mvt l pred m S nu /\
    let centre := ((\sum_i x i 0%R) / (INR N + 1))%Re in
    forall i j, (Rabs (xn i 0%R - centre) < Rabs (xn j 0%R - centre) -> S i i < S j j)%Re.
Proof. exact further_is_wider. Qed.
Print Assumptions C89_further_is_wider.
