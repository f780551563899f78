(** C79: data never make the unknown vector less certain. *)

From Coq Require Import Reals ZArith Lra List.
From mathcomp Require Import all_ssreflect all_algebra.
From Verif Require Import Model.Num Model.Py Model.Dists Model.Models Model.NdArray Model.MatrixModel.
From Verif Require Import Analysis.RField Spec.Matrices Analysis.Posdef Spec.Arrays Proofs.Arrays Proofs.LinReg Proofs.MvNormal Proofs.Loewner.
Delimit Scope R_scope with Re.

Set Implicit Arguments.
Unset Strict Implicit.
Unset Printing Implicit Defensive.
Import GRing.Theory.
Local Open Scope ring_scope.

(** C79: the variance of every combination [v] of the coordinates of the mean is at
    most what it was; with an observation it is less than before, and less than the
    variance of the average of the observations. *)
Theorem C79_known_covariance :
  forall (n : nat) (l : layout) np_inv, inverts np_inv -> forall inv, inverts inv ->
  forall (xs : list 'cV[R]_n) s cov prior (mu0 : 'cV[R]_n) cov0 covm,
  holds_sample l xs s -> holds_mx cov covm -> holds_mvn l prior mu0 cov0 -> posdef cov0 -> posdef covm ->
  exists post mu' (cov' : 'M[R]_n), multivariate_normal_known_covariance np_inv s.1 s.2 cov prior inv = Ok post /\
    holds_mvn l post mu' cov' /\
    (forall v, (quad cov' v <= quad cov0 v)%Re) /\
    (forall v, xs <> nil -> v <> 0 -> (quad cov' v < quad cov0 v)%Re /\ (INR (length xs) * quad cov' v < quad covm v)%Re).
Proof. exact known_covariance_sharper. Qed.

Example C79_case :
  holds_sample Flat ex_xs ex_sample /\ ex_xs <> nil /\ holds_mvn Flat ex_prior (0 : 'cV[R]_2) ex_cov /\ posdef ex_cov.
Proof. split; [exact: ex_sample_holds | split; [by [] | split; [exact: ex_prior_holds | exact: posdef_1J]]]. Qed.
Print Assumptions C79_known_covariance.

Theorem C79_known_precision :
  forall (n : nat) (l : layout) np_inv, inverts np_inv -> forall inv, inverts inv ->
  forall (xs : list 'cV[R]_n) s prec prior (mu0 : 'cV[R]_n) cov0 P,
  holds_sample l xs s -> holds_mx prec P -> holds_mvn l prior mu0 cov0 -> posdef cov0 -> posdef P ->
  exists post mu' (cov' : 'M[R]_n), multivariate_normal_known_precision np_inv s.1 s.2 prec prior inv = Ok post /\
    holds_mvn l post mu' cov' /\
    (forall v, (quad cov' v <= quad cov0 v)%Re) /\
    (forall v, xs <> nil -> v <> 0 -> (quad cov' v < quad cov0 v)%Re /\ (INR (length xs) * quad cov' v < quad (invmx P) v)%Re).
Proof. exact known_precision_sharper. Qed.
Print Assumptions C79_known_precision.

(** C79: linear regression.  The covariance of the coefficients, in units of the error
    variance, falls for exactly the combinations whose prior covariances with the
    fitted values do not all vanish, and never rises. *)
Theorem C79_linear_regression :
  forall (N n : nat) (l : layout) inv X y prior (Xm : 'M[R]_(N, n)) (ym : 'cV[R]_N) (mu : 'cV[R]_n) Di a b,
  inverts inv -> holds_mx X Xm -> holds_vec l y ym -> holds_nig l prior mu Di a b -> posdef Di ->
  exists post mu' Di' a' b', linear_regression X y prior inv = Ok post /\ holds_nig l post mu' Di' a' b' /\
    (forall v, (quad Di' v <= quad Di v)%Re) /\
    (forall v, Xm *m Di *m v <> 0 -> (quad Di' v < quad Di v)%Re) /\
    (forall v, Xm *m Di *m v = 0 -> quad Di' v = quad Di v).
Proof. exact linear_regression_sharper. Qed.

(** two coefficients, one row (1, 1), prior covariance 1 + J: (1, 0) is learned about, (1, -1) is not *)
Example C79_regression_case :
  let Xm : 'M[R]_(1, 2) := const_mx 1 in
  let Di : 'M[R]_2 := 1%:M + const_mx 1 in
  inverts real_inv /\ holds_mx (of_mx Xm) Xm /\ posdef Di /\
  holds_nig Flat (mkNormalInverseGamma (of_flat (0 : 'cV[R]_2)) (scalar 2%Re) (scalar 1%Re) (Some (of_mx Di)) None)
            (0 : 'cV[R]_2) Di 2 1 /\
  Xm *m Di *m (delta_mx 0 0 : 'cV[R]_2) <> 0 /\ Xm *m Di *m (delta_mx 0 0 - delta_mx 1 0 : 'cV[R]_2) = 0.
Proof.
  move=> Xm Di. split; first exact: real_inv_inverts. split; first exact: of_mx_holds. split; first exact: posdef_1J.
  split.
  { split; first exact: of_flat_holds. split; first by left. split; first by left. split=> //.
    exists (of_mx Di). split=> //. exact: of_mx_holds. }
  have E : Xm *m Di = const_mx 3%Re.
  { rewrite mulmxDr mulmx1. apply/matrixP => i j. rewrite !mxE !big_ord_recl big_ord0 !mxE. toR. lra. }
  split.
  - rewrite E. move/matrixP/(_ 0 0). rewrite mxE !big_ord_recl big_ord0 !mxE /=. rewrite ?mulr0n ?mulr1n. toR. lra.
  - rewrite E. apply/matrixP => i j. rewrite [j]ord1 mxE !big_ord_recl big_ord0 !mxE /=. rewrite ?mulr0n ?mulr1n. toR. lra.
Qed.
Print Assumptions C79_linear_regression.
