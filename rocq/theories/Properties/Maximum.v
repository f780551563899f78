(** C90: the predicted maximum of docs/examples/bootstrap.md. *)

From Coq Require Import ZArith Reals Lra Lia.
From Coquelicot Require Import Coquelicot.
From Verif Require Import Model.Num Model.Py Model.Dists Model.ScipyDist Model.Models Model.DocPrograms.
From Verif Require Import Spec.Densities Spec.Bayes Spec.Joint Spec.Maximum.
From Verif Require Import Analysis.Improper Analysis.GammaFacts Proofs.Maximum.
From Coq Require Import List.
Import ListNotations.
Open Scope R_scope.

(** C90 (true part): one new count has the distribution of the page. *)
Theorem C90_one_count :
  forall (data : list R) (prior : Gamma R), 0 < Gamma_alpha prior -> 0 < Gamma_beta prior -> List.Forall (fun x => 0 <= x) data ->
  forall x : nat, marginal Fpos0 Finf (pdf (Gamma_dist (poisson_gamma (sumR data) (INR (length data)) prior)))
    (fun lam => pmf (Poisson_dist (mkPoisson lam)) (Z.of_nat x))
    (pmf (NegativeBinomial_dist (get_posterior_predictive data prior)) (Z.of_nat x)).
Proof. exact one_count. Qed.
Print Assumptions C90_one_count.

(** C90 (false): the maximum of several new counts.  The page draws them independently of
    each other, though they share the unknown rate.  For two counts or more every probability
    [maximum <= k] comes out too small: the page overstates the maximum for all data, all
    priors and all [k]. *)
Theorem C90_maximum_refuted :
  forall (data : list R) (prior : Gamma R) (k n : nat),
  0 < Gamma_alpha prior -> 0 < Gamma_beta prior -> List.Forall (fun x => 0 <= x) data -> (2 <= n)%nat ->
  let posterior := pdf (Gamma_dist (poisson_gamma (sumR data) (INR (length data)) prior)) in
  let page := all_at_most (fun x => pmf (NegativeBinomial_dist (get_posterior_predictive data prior)) (Z.of_nat x)) k n in
  let given lam := all_at_most (fun x => pmf (Poisson_dist (mkPoisson lam)) (Z.of_nat x)) k n in
  exists right, marginal Fpos0 Finf posterior given right /\ page < right /\ ~ marginal Fpos0 Finf posterior given page.
Proof. exact several_counts. Qed.

(** The prior of the page and the maximum of 10 counts, with data 3, 1, 4. *)
Example C90_maximum_case :
  0 < Gamma_alpha (mkGamma 1 1) /\ 0 < Gamma_beta (mkGamma 1 1) /\ List.Forall (fun x => 0 <= x) [3; 1; 4] /\ (2 <= 10)%nat.
Proof. simpl. repeat split; try lra; try lia. repeat (apply List.Forall_cons; [lra|]). apply List.Forall_nil. Qed.
Print Assumptions C90_maximum_refuted.
