(** C101: scaling distributions, as docs/examples/scaling-distributions.md describes it. *)

From Coq Require Import Reals Lra.
From Coquelicot Require Import Coquelicot.
From Verif Require Import Model.Num Model.Py Model.Dists Model.ScipyDist Spec.Densities Spec.Bayes Spec.Moments Spec.Scaling Analysis.Improper Analysis.GammaFacts Proofs.Scaling.
Open Scope R_scope.

(** C101 (refuted).  The page says that scaling a normal distribution uses "the fact that the
    variance of a scaled normal distribution is the square of the scaling factor": [norm * k]
    would be the distribution of k times the variable.  It is so only for k = 1. *)
Theorem C101_normal_refuted :
  forall (d : Normal R) k, 0 < Normal_sigma d -> 0 < k ->
  (scaled_law (fun _ => True) (pdf (Normal_dist d)) k (pdf (Normal_dist (Normal_mul d k))) <-> k = 1).
Proof. exact normal_mul_scaling. Qed.

(** the page: Normal(mu=0, sigma=1) * 2 has the standard deviation sqrt 2, not 2 *)
Example C101_case_page :
  Normal_mul (mkNormal 0 1) 2 = mkNormal 0 (sqrt 2) /\ sqrt 2 <> 2 /\ 0 < Normal_sigma (mkNormal 0 1) /\ 0 < 2.
Proof.
  split; [|split; [|simpl; lra]].
  - rewrite normal_mul_eq by (simpl; lra). simpl. f_equal; ring.
  - intros E. pose proof (sqrt_sqrt 2 ltac:(lra)). rewrite E in H. lra.
Qed.

Print Assumptions C101_normal_refuted.

(** C101: nor is [gamma * k]. *)
Theorem C101_gamma_refuted :
  forall (d : Gamma R) k, 0 < Gamma_alpha d -> 0 < Gamma_beta d -> 0 < k ->
  (scaled_law (fun x => 0 < x) (pdf (Gamma_dist d)) k (pdf (Gamma_dist (Gamma_mul d k))) <-> k = 1).
Proof. exact gamma_mul_scaling. Qed.

Example C101_case_gamma : 0 < Gamma_alpha (mkGamma 2 3) /\ 0 < Gamma_beta (mkGamma 2 3) /\ 0 < 2.
Proof. simpl. lra. Qed.

Print Assumptions C101_gamma_refuted.

(** C101: what holds instead: the mean is multiplied by k and the variance also by k, as for
    the sum of k independent copies (C40) ... *)
Theorem C101_moments :
  forall (d : Normal R) k, 0 < Normal_sigma d -> 0 < k ->
  is_mean Fminf Finf (pdf (Normal_dist (Normal_mul d k))) (k * Normal_mu d) /\
  is_variance Fminf Finf (pdf (Normal_dist (Normal_mul d k))) (k * Normal_sigma d ^ 2).
Proof. exact normal_mul_moments. Qed.

Example C101_case_moments :
  is_variance Fminf Finf (pdf (Normal_dist (Normal_mul (mkNormal 0 1) 2))) 2.
Proof.
  pose proof (proj2 (C101_moments (mkNormal 0 1) 2 ltac:(simpl; lra) ltac:(lra))) as H.
  simpl Normal_sigma in H. replace (2 * 1 ^ 2) with 2 in H by ring. exact H.
Qed.

Print Assumptions C101_moments.

(** C101: ... while the page's description is met by Normal(k mu, k sigma), whose variance is
    multiplied by k squared. *)
Theorem C101_intended :
  forall mu sigma k, 0 < sigma -> 0 < k ->
  scaled_law (fun _ => True) (pdf (Normal_dist (mkNormal mu sigma))) k (pdf (Normal_dist (mkNormal (k * mu) (k * sigma)))) /\
  is_mean Fminf Finf (pdf (Normal_dist (mkNormal (k * mu) (k * sigma)))) (k * mu) /\
  is_variance Fminf Finf (pdf (Normal_dist (mkNormal (k * mu) (k * sigma)))) (k ^ 2 * sigma ^ 2).
Proof. exact (fun mu sigma k Hs Hk => conj (normal_true_scaling mu sigma k Hs Hk) (scaled_normal_moments mu sigma k Hs Hk)). Qed.

Example C101_case_intended :
  is_variance Fminf Finf (pdf (Normal_dist (mkNormal (2 * 0) (2 * 1)))) 4.
Proof.
  destruct (C101_intended 0 1 2 Rlt_0_1 Rlt_0_2) as (_ & _ & H). replace (2 ^ 2 * 1 ^ 2) with 4 in H by ring. exact H.
Qed.

Print Assumptions C101_intended.

(** C101: the Poisson program of the page: [daily + daily] is [2 * daily], with the rates of the
    labels (that these are the laws of the sums is C39). *)
Theorem C101_poisson :
  forall rate,
  Poisson_add (mkPoisson rate) (mkPoisson rate) = Poisson_mul (mkPoisson rate) 2 /\
  Poisson_lam (Poisson_add (mkPoisson rate) (mkPoisson rate)) = 2 * rate /\
  Poisson_lam (Poisson_mul (mkPoisson rate) 7) = 7 * rate.
Proof. exact poisson_program. Qed.

Example C101_case_poisson : Poisson_lam (Poisson_mul (mkPoisson (/ 4)) 7) = 7 / 4.
Proof. destruct (C101_poisson (/ 4)) as (_ & _ & ->). lra. Qed.

Print Assumptions C101_poisson.
