(** C94: what the joint laws of [normal] say about one of their coordinates, and the classical t laws. *)

From Coq Require Import Reals Lra Lia.
From Coquelicot Require Import Coquelicot.
From Verif Require Import Model.Num Model.Py Model.Dists Model.ScipyDist Model.Models.
From Verif Require Import Spec.Special Spec.Densities Spec.Bayes Spec.Joint Spec.Classical Analysis.GammaFacts Proofs.Classical.
From Coq Require Import List.
Import ListNotations.
Open Scope R_scope.

(** C94: the mean alone follows a Student t law, in both families; the variance alone the
    InverseGamma law and the precision alone the Gamma law with the same alpha and beta. *)
Theorem C94_coordinates :
  forall (mu nu a b : R), 0 < nu -> 0 < a -> 0 < b ->
  let t := pdf (StudentT_dist (mkStudentT mu (sqrt (b / (nu * a))) (2 * a))) in
  let nig : NormalPrior R unit := PNIG (mkNormalInverseGamma mu a b None (Some nu)) in
  let ng : NormalPrior R unit := PNG (mkNormalGamma mu nu a b) in
  first_alone (normal_prior_pdf nig) t /\
  first_alone (normal_prior_pdf ng) t /\
  second_alone (normal_prior_pdf nig) (pdf (InverseGamma_dist (mkInverseGamma a b))) /\
  second_alone (normal_prior_pdf ng) (pdf (Gamma_dist (mkGamma a b))).
Proof.
  intros mu nu a b Hn Ha Hb.
  exact (conj (mean_alone_nig mu nu a b Hn Ha Hb) (conj (mean_alone_ng mu nu a b Hn Ha Hb)
          (conj (variance_alone mu nu a b Hn) (precision_alone mu nu a b Hn)))).
Qed.

(** The Cauchy case: alpha = 1/2, beta = 1/2, nu = 1 gives the t law with one degree of freedom and unit scale. *)
Example C94_coordinates_case : first_alone (nig_pdf 0 1 (/ 2) (/ 2)) (pdf (S_t 1 0 1)).
Proof.
  destruct (C94_coordinates 0 1 (/ 2) (/ 2)) as (H & _); try lra. cbv zeta in H.
  replace (2 * / 2) with 1 in H by lra. replace (/ 2 / (1 * / 2)) with 1 in H by lra. rewrite sqrt_1 in H. exact H.
Qed.

Print Assumptions C94_coordinates.

(** C94: take the prior that says nothing: alpha = -1/2, beta = 0, nu = 0 (lam = 0), any mu.
    [normal] accepts it.  Given two or more data that are not all equal, the result is the
    Bayesian posterior of the prior that is flat in the mean and in the logarithm of the
    variance; it is a proper law; the mean alone has the classical t law with n - 1 degrees
    of freedom around the average; and the predictive is the classical prediction law. *)
Theorem C94_classical :
  forall (gamma_family : bool) (mu0 : R) (data : list R),
  (2 <= length data)%nat -> 0 < sample_variance data ->
  let n := INR (length data) in
  let prior : NormalPrior R unit :=
    if gamma_family then PNG (mkNormalGamma mu0 0 (- / 2) 0)
    else PNIG (mkNormalInverseGamma mu0 (- / 2) 0 None (Some 0)) in
  exists post,
    normal (sumR data) (sumR (map (fun x => x ^ 2) data)) n prior = Ok post /\
    normal_prior_ok post /\
    bayes_posterior2 Fminf Finf Fpos0 Finf (fun v => 0 < v) flat
      (fun m v => likelihood (fun p x => pdf (Normal_dist (mkNormal (fst p) (normal_obs_sd post (snd p)))) x) data (m, v))
      (normal_prior_pdf post) /\
    first_alone (normal_prior_pdf post)
      (pdf (StudentT_dist (mkStudentT (average data) (sqrt (sample_variance data / n)) (n - 1)))) /\
    normal_predictive post = Ok (mkStudentT (average data) (sqrt (sample_variance data * (1 + / n))) (n - 1)).
Proof. exact (@classical_t unit). Qed.

Example C94_classical_case :
  (2 <= length [1; 2; 6])%nat /\ average [1; 2; 6] = 3 /\ sample_variance [1; 2; 6] = 7.
Proof.
  assert (A : average [1; 2; 6] = 3) by (unfold average; cbn [length sumR fold_right INR]; field).
  split. simpl; lia. split. exact A. unfold sample_variance. rewrite A. cbn [length map sumR fold_right INR]. field.
Qed.

Print Assumptions C94_classical.
