(** C75: the array models and the scalar models agree where both apply. *)

From Coq Require Import Reals ZArith Lra List.
From mathcomp Require Import all_ssreflect all_algebra.
From Verif Require Import Model.Num Model.Py Model.Dists Model.ScipyDist Model.Models Model.NdArray Model.MatrixModel.
From Verif Require Import Spec.Special Spec.Densities Spec.Bayes.
From Verif Require Import Analysis.RField Spec.Matrices Spec.Wishart Spec.Arrays Spec.OneDim Proofs.Arrays Analysis.Posdef
  Proofs.LinReg Proofs.MvNormal Proofs.Wishart Proofs.OneDim.
Delimit Scope R_scope with Re.

Set Implicit Arguments.
Unset Strict Implicit.
Unset Printing Implicit Defensive.
Import GRing.Theory.
Local Open Scope ring_scope.

(** C75: diagonal covariances: the update with known covariance is, coordinate by
    coordinate, [normal_known_variance]. *)
Theorem C75_known_covariance :
  forall n l np_inv inv, inverts np_inv -> inverts inv ->
  forall (xs : list 'cV[R]_n) s cov prior mu0 (sd v : 'rV[R]_n),
  (forall i, (0 < v 0%R i)%Re) -> (forall i, (0 < sd 0%R i)%Re) ->
  holds_sample l xs s -> holds_mx cov (diag_mx v) -> holds_mvn l prior mu0 (diag_mx (vars sd)) ->
  exists post (mu' : 'cV[R]_n) (sd' : 'rV[R]_n),
    multivariate_normal_known_covariance np_inv s.1 s.2 cov prior inv = Ok post /\
    holds_mvn l post mu' (diag_mx (vars sd')) /\ (forall i, (0 < sd' 0%R i)%Re) /\
    forall i, normal_known_variance (sumR (coord i xs)) (INR (length xs)) (v 0 i) (mkNormal (mu0 i 0) (sd 0 i))
              = mkNormal (mu' i 0) (sd' 0 i).
Proof. exact known_covariance_coordinates. Qed.

Example C75_known_covariance_case :
  let v : 'rV[R]_2 := const_mx 3%Re in let sd : 'rV[R]_2 := const_mx 2%Re in
  inverts real_inv /\ (forall i, (0 < v 0%R i)%Re) /\ (forall i, (0 < sd 0%R i)%Re) /\
  holds_sample Flat [:: (const_mx 1%Re : 'cV[R]_2); const_mx 3%Re] (scalar 2%Re, of_flat (const_mx 2%Re : 'cV[R]_2)) /\
  holds_mx (of_mx (diag_mx v)) (diag_mx v) /\
  holds_mvn Flat (mkMultivariateNormal (of_flat (0 : 'cV[R]_2)) (of_mx (diag_mx (vars sd)))) 0 (diag_mx (vars sd)).
Proof.
  cbv zeta. split; first exact: real_inv_inverts. split; first by move=> i; rewrite mxE; lra.
  split; first by move=> i; rewrite mxE; lra. split.
  { split; first by split. exists (const_mx 2%Re). split; first exact: of_flat_holds.
    rewrite !big_cons big_nil. apply/matrixP => i j. rewrite !mxE /=. toR. ring. }
  split; first exact: of_mx_holds. eexists _, _. split; first reflexivity. split; [exact: of_flat_holds | exact: of_mx_holds].
Qed.
Print Assumptions C75_known_covariance.

(** ... with known precision, [normal_known_precision] ... *)
Theorem C75_known_precision :
  forall n l np_inv inv, inverts np_inv -> inverts inv ->
  forall (xs : list 'cV[R]_n) s prec prior mu0 (sd w : 'rV[R]_n),
  (forall i, (0 < w 0%R i)%Re) -> (forall i, (0 < sd 0%R i)%Re) ->
  holds_sample l xs s -> holds_mx prec (diag_mx w) -> holds_mvn l prior mu0 (diag_mx (vars sd)) ->
  exists post (mu' : 'cV[R]_n) (sd' : 'rV[R]_n),
    multivariate_normal_known_precision np_inv s.1 s.2 prec prior inv = Ok post /\
    holds_mvn l post mu' (diag_mx (vars sd')) /\ (forall i, (0 < sd' 0%R i)%Re) /\
    forall i, normal_known_precision (sumR (coord i xs)) (INR (length xs)) (w 0 i) (mkNormal (mu0 i 0) (sd 0 i))
              = mkNormal (mu' i 0) (sd' 0 i).
Proof. exact known_precision_coordinates. Qed.
Print Assumptions C75_known_precision.

(** ... and so for the predictives. *)
Theorem C75_known_covariance_predictive :
  forall n l d cov mu0 (sd v : 'rV[R]_n),
  (forall i, (0 < v 0%R i)%Re) -> (forall i, (0 < sd 0%R i)%Re) ->
  holds_mx cov (diag_mx v) -> holds_mvn l d mu0 (diag_mx (vars sd)) ->
  exists pred (mu' : 'cV[R]_n) (sd' : 'rV[R]_n),
    multivariate_normal_known_covariance_predictive d cov = Ok pred /\
    holds_mvn l pred mu' (diag_mx (vars sd')) /\ (forall i, (0 < sd' 0%R i)%Re) /\
    forall i, normal_known_variance_predictive (v 0 i) (mkNormal (mu0 i 0) (sd 0 i)) = mkNormal (mu' i 0) (sd' 0 i).
Proof. exact known_covariance_predictive_coordinates. Qed.
Print Assumptions C75_known_covariance_predictive.

Theorem C75_known_precision_predictive :
  forall n l inv, inverts inv -> forall d prec mu0 (sd w : 'rV[R]_n),
  (forall i, (0 < w 0%R i)%Re) -> (forall i, (0 < sd 0%R i)%Re) ->
  holds_mx prec (diag_mx w) -> holds_mvn l d mu0 (diag_mx (vars sd)) ->
  exists pred (mu' : 'cV[R]_n) (sd' : 'rV[R]_n),
    multivariate_normal_known_precision_predictive d prec inv = Ok pred /\
    holds_mvn l pred mu' (diag_mx (vars sd')) /\ (forall i, (0 < sd' 0%R i)%Re) /\
    forall i, normal_known_precision_predictive (w 0 i) (mkNormal (mu0 i 0) (sd 0 i)) = mkNormal (mu' i 0) (sd' 0 i).
Proof. exact known_precision_predictive_coordinates. Qed.
Print Assumptions C75_known_precision_predictive.

(** C75: in one dimension [multivariate_normal_known_mean] is [normal_known_mean]
    with the InverseGamma prior of half the degrees of freedom and half the scale. *)
Theorem C75_known_mean :
  forall X muA prior data (m nu p : R),
  holds_mx X (rows (col1 data)) -> holds_vec Flat muA (m%:M : 'cV[R]_1) -> holds_iw prior nu (p%:M : 'M[R]_1) ->
  exists post nu' p', multivariate_normal_known_mean X muA prior = Ok post /\
    holds_iw post nu' (p'%:M : 'M[R]_1) /\
    normal_known_mean (sumR data) (sumR (List.map (fun x => (x ^ 2)%Re) data)) (INR (length data)) m
      (VIG (mkInverseGamma (nu / 2)%Re (p / 2)%Re)) = VIG (mkInverseGamma (nu' / 2)%Re (p' / 2)%Re).
Proof. exact known_mean_one_dim. Qed.

Example C75_known_mean_case :
  holds_mx (of_mx (rows (col1 [:: 1; 4; -2]%Re))) (rows (col1 [:: 1; 4; -2]%Re)) /\
  holds_vec Flat (of_flat (1%Re%:M : 'cV[R]_1)) (1%Re%:M : 'cV[R]_1) /\
  holds_iw (mkInverseWishart (scalar 3%Re) (of_mx (5%Re%:M : 'M[R]_1))) 3 (5%Re%:M : 'M[R]_1).
Proof.
  split; first exact: of_mx_holds. split; first exact: of_flat_holds.
  eexists _, _. split; first reflexivity. split; [by split | exact: of_mx_holds].
Qed.
Print Assumptions C75_known_mean.

(** C75: regression on a constant is [normal], delta_inverse being 1 / nu. *)
Theorem C75_regression_on_constant :
  forall M l inv prior arrays data (m d a b : R),
  inverts inv -> data <> [::] -> holds_data l (ones data) arrays ->
  holds_nig l prior (m%:M : 'cV[R]_1) (d%:M : 'M[R]_1) a b -> (0 < d)%Re ->
  exists post m' d' a' b',
    linear_regression arrays.1 arrays.2 prior inv = Ok post /\
    holds_nig l post (m'%:M : 'cV[R]_1) (d'%:M : 'M[R]_1) a' b' /\ (0 < d')%Re /\
    normal (sumR data) (sumR (List.map (fun x => (x ^ 2)%Re) data)) (INR (length data))
      (PNIG (M := M) (mkNormalInverseGamma m a b None (Some (/ d)%Re))) =
    Ok (PNIG (mkNormalInverseGamma m' a' b' None (Some (/ d')%Re))).
Proof. exact regression_on_constant. Qed.

Example C75_regression_on_constant_case :
  let data := [:: 1; 4; -2]%Re in
  data <> [::] /\
  holds_data Flat (ones data) (of_mx (design (ones data)), of_flat (response (ones data))) /\
  holds_nig Flat (mkNormalInverseGamma (of_flat (1%Re%:M : 'cV[R]_1)) (scalar 2%Re) (scalar 3%Re) (Some (of_mx (5%Re%:M : 'M[R]_1))) None)
    (1%Re%:M : 'cV[R]_1) (5%Re%:M : 'M[R]_1) 2 3.
Proof.
  cbv zeta. split; first by []. split; first by split; [exact: of_mx_holds | exact: of_flat_holds].
  split; first exact: of_flat_holds. split; first by left. split; first by left. split; first by [].
  eexists. split; first reflexivity. exact: of_mx_holds.
Qed.
Print Assumptions C75_regression_on_constant.

(** ... and its prediction for the covariate 1 is [normal_predictive]. *)
Theorem C75_regression_on_constant_predictive :
  forall M l eye X dist (m d a b : R), makes_eye eye ->
  holds_mx X (1%:M : 'M[R]_1) -> holds_nig l dist (m%:M : 'cV[R]_1) (d%:M : 'M[R]_1) a b ->
  (0 < d)%Re -> (0 < a)%Re -> (0 < b)%Re ->
  exists pred t,
    linear_regression_predictive dist X eye = Ok pred /\
    normal_predictive (PNIG (M := M) (mkNormalInverseGamma m a b None (Some (/ d)%Re))) = Ok t /\
    holds_mvt l pred ((StudentT_mu t)%:M : 'cV[R]_1) ((StudentT_sigma t ^ 2)%Re%:M : 'M[R]_1) (StudentT_nu t) /\
    (0 < StudentT_sigma t)%Re.
Proof. exact constant_predictive. Qed.
Print Assumptions C75_regression_on_constant_predictive.
