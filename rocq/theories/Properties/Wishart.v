(** C47-C48: multivariate normal models with unknown covariance. *)

From Coq Require Import Reals Lra List.
From mathcomp Require Import all_ssreflect all_algebra.
From Verif Require Import Model.Num Model.Py Model.Dists Model.ScipyDist Model.Models Model.NdArray Model.MatrixModel.
From Verif Require Import Analysis.RField Spec.Densities Spec.Bayes Spec.Matrices Spec.Wishart Spec.Arrays.
From Verif Require Import Analysis.Posdef Analysis.InvWishart Proofs.Arrays Proofs.MvNormal Proofs.Wishart.
Delimit Scope R_scope with Re.
Local Open Scope ring_scope.

(** The inverse Wishart density integrates to one over the positive definite
    matrices, in every dimension. *)
Theorem C47_density_proper :
  forall n nu (psi : 'M[R]_n), posdef psi -> (INR n - 1 < nu)%Re -> is_cone_int (iw_pdf nu psi) 1%Re.
Proof. exact iw_normalised. Qed.
Print Assumptions C47_density_proper.

(** The domain of integration is the cone of positive definite matrices. *)
Theorem C47_cone :
  forall n (a : R) (b : 'cV[R]_n) (C : 'M[R]_n),
  posdef (block_mx a%:M b^T b C) <-> posdef C /\ (quad (invmx C) b < a)%Re.
Proof. exact posdef_block_iff. Qed.
Print Assumptions C47_cone.

(** C47: for data of any number of rows (also none) the returned InverseWishart is
    the Bayes posterior of the covariance matrix, and proper. *)
Theorem C47_known_mean_posterior :
  forall n X muA prior (xs : list 'cV[R]_n) mu nu (psi : 'M[R]_n),
  holds_mx X (rows xs) -> holds_vec Flat muA mu -> holds_iw prior nu psi ->
  posdef psi -> (INR n - 1 < nu)%Re ->
  exists post nu' psi', multivariate_normal_known_mean X muA prior = Ok post /\
    holds_iw post nu' psi' /\ posdef psi' /\ (INR n - 1 < nu')%Re /\
    cone_posterior (iw_pdf nu psi) (fun S => mvn_lik S xs mu) (iw_pdf nu' psi').
Proof. exact known_mean_posterior. Qed.

Example C47_case :
  let psi : 'M[R]_2 := 1%:M + const_mx 1 in
  holds_mx (of_mx (rows ex_xs)) (rows ex_xs) /\
  holds_vec Flat (of_flat (const_mx 3%Re : 'cV[R]_2)) (const_mx 3%Re : 'cV[R]_2) /\
  holds_iw (mkInverseWishart (scalar 4%Re) (of_mx psi)) 4 psi /\ posdef psi /\ (INR 2 - 1 < 4)%Re.
Proof.
  cbv zeta. split; first exact: of_mx_holds. split; first exact: of_flat_holds.
  split; last by split; [exact: posdef_1J | rewrite /=; lra].
  eexists _, _. split; first reflexivity. split; [by split | exact: of_mx_holds].
Qed.
Print Assumptions C47_known_mean_posterior.

Theorem C47_sequential :
  forall n muA prior (batches : list (list 'cV[R]_n)) Xs X (mu : 'cV[R]_n) nu (psi : 'M[R]_n),
  List.Forall2 (fun (xs : list 'cV[R]_n) X => holds_mx X (rows xs)) batches Xs ->
  holds_mx X (rows (List.concat batches)) ->
  holds_vec Flat muA mu -> holds_iw prior nu psi ->
  exists post1 post2 nu' psi',
    List.fold_left (fun r X => bind r (fun p => multivariate_normal_known_mean X muA p)) Xs (Ok prior) = Ok post1 /\
    multivariate_normal_known_mean X muA prior = Ok post2 /\
    holds_iw post1 nu' (psi' : 'M[R]_n) /\ holds_iw post2 nu' psi'.
Proof. exact known_mean_sequential. Qed.

Example C47_sequential_case :
  let batches : list (list 'cV[R]_2) := [:: ex_xs; [::]; [:: 0]] in
  List.Forall2 (fun (xs : list 'cV[R]_2) X => holds_mx X (rows xs)) batches
    (List.map (fun xs : list 'cV[R]_2 => of_mx (rows xs)) batches).
Proof.
  cbv zeta. do 3 (apply: List.Forall2_cons; first exact: of_mx_holds). exact: List.Forall2_nil.
Qed.
Print Assumptions C47_sequential.

(** C48: the posterior of mean vector and covariance matrix.  numpy's mean of no
    rows is nan, so at least one row is needed. *)
Theorem C48_posterior :
  forall n outer, makes_outer outer ->
  forall X prior (xs : list 'cV[R]_n) mu k nu (psi : 'M[R]_n),
  holds_mx X (rows xs) -> xs <> [::] -> holds_niw prior mu k nu psi ->
  posdef psi -> (INR n - 1 < nu)%Re -> (0 < k)%Re ->
  exists post mu' k' nu' psi', multivariate_normal X prior outer = Ok post /\
    holds_niw post mu' k' nu' psi' /\ posdef psi' /\ (INR n - 1 < nu')%Re /\ (0 < k')%Re /\
    cone_posterior2 (niw_pdf mu k nu psi) (fun t S => mvn_lik S xs t) (niw_pdf mu' k' nu' psi').
Proof. exact mvn_posterior. Qed.

(** C48: numpy's own [outer] is one. *)
Theorem C48_np_outer : makes_outer np_outer.
Proof. exact: np_outer_makes_outer. Qed.
Print Assumptions C48_np_outer.

Example C48_case :
  let psi : 'M[R]_2 := 1%:M + const_mx 1 in
  makes_outer np_outer /\ holds_mx (of_mx (rows ex_xs)) (rows ex_xs) /\ ex_xs <> [::] /\
  holds_niw (mkNormalInverseWishart (of_flat (const_mx 3%Re : 'cV[R]_2)) (scalar (/ 2)%Re) (scalar 4%Re) (of_mx psi))
            (const_mx 3%Re : 'cV[R]_2) (/ 2) 4 psi.
Proof.
  cbv zeta. split; first exact: np_outer_makes_outer. split; first exact: of_mx_holds. split; first by [].
  split; first exact: of_flat_holds. split; first by split.
  eexists _, _. split; first reflexivity. split; [by split | exact: of_mx_holds].
Qed.
Print Assumptions C48_posterior.

(** Any number of nonempty batches in sequence give the parameters of a single
    update with all rows. *)
Theorem C48_sequential :
  forall n outer, makes_outer outer ->
  forall prior (batches : list (list 'cV[R]_n)) Xs X (mu : 'cV[R]_n) k nu (psi : 'M[R]_n),
  List.Forall2 (fun (xs : list 'cV[R]_n) X => holds_mx X (rows xs)) batches Xs ->
  holds_mx X (rows (List.concat batches)) ->
  batches <> [::] -> List.Forall (fun xs => xs <> [::]) batches ->
  holds_niw prior mu k nu psi -> (0 < k)%Re ->
  exists post1 post2 mu' k' nu' psi',
    List.fold_left (fun r X => bind r (fun p => multivariate_normal X p outer)) Xs (Ok prior) = Ok post1 /\
    multivariate_normal X prior outer = Ok post2 /\
    holds_niw post1 (mu' : 'cV[R]_n) k' nu' psi' /\ holds_niw post2 mu' k' nu' psi'.
Proof. exact mvn_sequential. Qed.

Example C48_sequential_case :
  let batches : list (list 'cV[R]_2) := [:: ex_xs; [:: 0]; ex_xs] in
  batches <> [::] /\ List.Forall (fun xs => xs <> [::]) batches.
Proof. cbv zeta. split; first by []. by do 3 (apply: List.Forall_cons; first by []). Qed.
Print Assumptions C48_sequential.

(** The predictive is a multivariate t with nu - p + 1 degrees of freedom, and its
    density at every point is the integral of the likelihood over mean and
    covariance. *)
Theorem C48_predictive :
  forall n d (mu : 'cV[R]_n) k nu (psi : 'M[R]_n), holds_niw d mu k nu psi ->
  posdef psi -> (INR n - 1 < nu)%Re -> (0 < k)%Re ->
  exists pred S, multivariate_normal_predictive d = Ok pred /\
    holds_mvt Flat pred mu S (nu - INR n + 1)%Re /\ posdef S /\ (0 < nu - INR n + 1)%Re /\
    forall x, cone_marginal2 (niw_pdf mu k nu psi) (fun t Sig => mvn_pdf t Sig x) (mvt_pdf mu S (nu - INR n + 1)%Re x).
Proof. exact mvn_predictive_marginal. Qed.
Print Assumptions C48_predictive.

(** In one dimension the update is [normal] with alpha = nu/2, beta = psi/2,
    nu = kappa ... *)
Theorem C48_one_dimension :
  forall M outer X prior data (m k nu p : R), makes_outer outer ->
  data <> [::] -> holds_mx X (rows (List.map (fun x => (x%:M : 'cV[R]_1)) data)) ->
  holds_niw prior (m%:M : 'cV[R]_1) k nu (p%:M : 'M[R]_1) -> (0 < k)%Re ->
  exists post m' k' nu' p',
    multivariate_normal X prior outer = Ok post /\
    holds_niw post (m'%:M : 'cV[R]_1) k' nu' (p'%:M : 'M[R]_1) /\
    normal (sumR data) (sumR (List.map (fun x => (x ^ 2)%Re) data)) (INR (length data))
      (PNIG (M := M) (mkNormalInverseGamma m (nu / 2)%Re (p / 2)%Re None (Some k))) =
    Ok (PNIG (mkNormalInverseGamma m' (nu' / 2)%Re (p' / 2)%Re None (Some k'))).
Proof. exact one_dim_posterior. Qed.

Example C48_one_dimension_case :
  let data := [:: 1; 3; -2]%Re in
  data <> [::] /\
  holds_mx (of_mx (rows (List.map (fun x => (x%:M : 'cV[R]_1)) data))) (rows (List.map (fun x => (x%:M : 'cV[R]_1)) data)) /\
  holds_niw (mkNormalInverseWishart (of_flat (2%Re%:M : 'cV[R]_1)) (scalar 1%Re) (scalar 3%Re) (of_mx (5%Re%:M : 'M[R]_1)))
            (2%Re%:M : 'cV[R]_1) 1 3 (5%Re%:M : 'M[R]_1).
Proof.
  cbv zeta. split; first by []. split; first exact: of_mx_holds.
  split; first exact: of_flat_holds. split; first by split.
  eexists _, _. split; first reflexivity. split; [by split | exact: of_mx_holds].
Qed.
Print Assumptions C48_one_dimension.

(** ... and the predictive has the density of [normal_predictive]. *)
Theorem C48_one_dimension_predictive :
  forall M d (m k nu p : R),
  holds_niw d (m%:M : 'cV[R]_1) k nu (p%:M : 'M[R]_1) -> (0 < k)%Re -> (0 < nu)%Re -> (0 < p)%Re ->
  exists pred (S : 'M[R]_1) df t,
    multivariate_normal_predictive d = Ok pred /\ holds_mvt Flat pred (m%:M : 'cV[R]_1) S df /\
    normal_predictive (PNIG (M := M) (mkNormalInverseGamma m (nu / 2)%Re (p / 2)%Re None (Some k))) = Ok t /\
    forall x, mvt_pdf (m%:M : 'cV[R]_1) S df x%:M = pdf (StudentT_dist t) x.
Proof. exact one_dim_predictive. Qed.
Print Assumptions C48_one_dimension_predictive.

(** C38: NormalInverseWishart.from_inverse_wishart keeps the distribution of the
    covariance and has the mean and the strength given. *)
Theorem C38_NormalInverseWishart_from_inverse_wishart :
  forall n (m k : nd R) (iw : InverseWishart (nd R)) (mu : 'cV[R]_n) (kappa nu : R) (psi : 'M[R]_n),
  holds_vec Flat m mu -> holds_sc k kappa -> holds_iw iw nu psi ->
  holds_niw (NormalInverseWishart_from_inverse_wishart m k iw) mu kappa nu psi.
Proof. exact from_iw_holds. Qed.

Example C38_case_wishart :
  holds_vec Flat (of_flat (2%Re%:M : 'cV[R]_1)) (2%Re%:M : 'cV[R]_1) /\ holds_sc (scalar 1%Re) 1 /\
  holds_iw (mkInverseWishart (scalar 3%Re) (of_mx (5%Re%:M : 'M[R]_1))) 3 (5%Re%:M : 'M[R]_1).
Proof.
  split; first exact: of_flat_holds. split; first by split.
  eexists _, _. split; first reflexivity. split; [by split | exact: of_mx_holds].
Qed.
Print Assumptions C38_NormalInverseWishart_from_inverse_wishart.
