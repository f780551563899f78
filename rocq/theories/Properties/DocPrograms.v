(** C87: the programs of the documentation. *)

From Coq Require Import ZArith Bool String Reals Lra Lia.
From Coquelicot Require Import Coquelicot.
From Verif Require Import Model.Num Model.Py Model.Dists Model.ScipyDist Model.Models Model.Table Model.NdArray Model.PyNum.
From Verif Require Import Model.Validate Model.ByName Model.DocPrograms Spec.Shapes Spec.DocPrograms.
From Verif Require Import Spec.Densities Spec.Bayes Spec.Joint Spec.Moments Spec.Normalised Spec.Limits Spec.Recovery.
From Verif Require Import Analysis.Improper Analysis.GammaFacts Proofs.DocPrograms Proofs.Window.
From Coq Require Import List.
Import ListNotations.
Open Scope R_scope.

(** C87: Thompson sampling never fails, whatever the generator does.  Every step takes the
    first group with the smallest sampled estimate; the second parameters count the samples
    spent on each group and share out all of them; the mean of each estimate is the average
    waiting time of its group together with one prior observation of one. *)
Theorem C87_thompson :
  forall (arctan2 : R -> R -> R) (k : nat), (1 <= k)%nat ->
  forall (G : Type) (draw_estimate : nd R * nd R -> G -> (nat -> R) * G) (draw_wait : nat -> G -> R * G) (total : nat) (g : G),
  exists alpha beta g' steps, thompson arctan2 k G draw_estimate draw_wait total g = Ok (alpha, beta, g', steps) /\
  nd_shape alpha = [k] /\ nd_shape beta = [k] /\ length steps = total /\ List.Forall (chose_smallest k) steps /\
  (forall i, (i < k)%nat -> at_index [i] beta - 1 = INR (times_chosen i steps) /\
     at_index [i] alpha / at_index [i] beta = (1 + total_wait i steps) / (1 + INR (times_chosen i steps))) /\
  sum_to (fun i => at_index [i] beta - 1) k = INR total.
Proof. exact thompson_ok. Qed.

(** Two groups; the generator is a counter, the estimates favour the second group, which
    always makes us wait for 3. *)
Example C87_thompson_case :
  exists alpha beta g', thompson (fun _ _ => 0) 2 nat (fun _ g => (fun i => if Nat.eqb i 0 then 2 else 1, S g)) (fun _ g => (3, S g)) 2 0%nat
    = Ok (alpha, beta, g', [mkStep [2; 1] 1 3; mkStep [2; 1] 1 3]) /\ g' = 4%nat /\
  at_index [0%nat] alpha = 1 /\ at_index [1%nat] alpha = 7 /\ at_index [1%nat] beta = 3.
Proof.
  do 3 eexists. split.
  - simpl. destruct (Rlt_dec 1 2); [|lra]. simpl. reflexivity.
  - split; [reflexivity|]. unfold at_index. simpl. repeat split; lra.
Qed.

Print Assumptions C87_thompson.

(** C87: the one vectorised call of docs/index.md computes the posterior after every
    observation: the same as updating with the observations one by one. *)
Theorem C87_running_posterior :
  forall (arctan2 : R -> R -> R) (samples : list R) (prior : Beta R),
  exists alpha beta, running_posterior arctan2 samples prior = Ok [alpha; beta] /\
  nd_shape alpha = [length samples] /\ nd_shape beta = [length samples] /\
  forall i, (i < length samples)%nat ->
  at_index [i] alpha = Beta_alpha prior + fold_right Rplus 0 (firstn (S i) samples) /\
  at_index [i] beta = Beta_beta prior + fold_right Rplus 0 (map (fun x => 1 - x) (firstn (S i) samples)) /\
  mkBeta (at_index [i] alpha) (at_index [i] beta) = one_by_one (firstn (S i) samples) prior.
Proof. exact running_ok. Qed.

Example C87_running_case :
  exists alpha beta, running_posterior (fun _ _ => 0) [1; 0; 1] (mkBeta 1 1) = Ok [alpha; beta] /\
  at_index [0%nat] alpha = 2 /\ at_index [2%nat] alpha = 3 /\ at_index [2%nat] beta = 2.
Proof. do 2 eexists. split; [reflexivity|]. unfold at_index. simpl. repeat split; lra. Qed.

Print Assumptions C87_running_posterior.

(** C87 refuted: scripts/post-engagement.py passes the prior under a keyword that
    [binomial_beta] does not have; the call raises for all inputs. *)
Theorem C87_post_engagement_refuted :
  forall (arctan2 : R -> R -> R) (rate impressions reactions : R),
  exists msg, snd (post_engagement (Ufuncs_R arctan2) rate impressions reactions) = Raise (ValueError msg).
Proof. intros. apply post_engagement_raises. Qed.

Print Assumptions C87_post_engagement_refuted.

(** C87: with the keyword [prior] the script would do what its comments say: the prior is
    centred at the average rate with some uncertainty: it counts as [1 / rate] further
    impressions with that rate. *)
Theorem C87_post_engagement_repaired :
  forall (arctan2 : R -> R -> R) (rate impressions reactions : R), 0 < rate -> 0 < impressions ->
  let prior_impressions := / rate in
  exists alpha beta, snd (post_engagement_as "prior" (Ufuncs_R arctan2) rate impressions reactions) =
    Ok (OInst cBeta [cContinuousPlotDistMixin; cPlotDistMixin; cSliceMixin]
        (VDist [("alpha"%string, ANum alpha); ("beta"%string, ANum beta)])) /\
  alpha = 1 + reactions /\ alpha + beta = prior_impressions + impressions /\
  alpha / (alpha + beta) = (prior_impressions * rate + impressions * (reactions / impressions)) / (prior_impressions + impressions).
Proof. exact post_engagement_repaired. Qed.

(** the first post of the script *)
Example C87_post_engagement_case : 0 < 173 / 10000 /\ 0 < 1769.
Proof. lra. Qed.

Print Assumptions C87_post_engagement_repaired.

(** C87: docs/examples/limit.md predicts the count of a window of [w] hours.  The mean is
    that of the right distribution, the count of a window of [w] hours under the posterior
    of the rate, *)
Theorem C87_window :
  forall (d : Gamma R) (w : R), 0 < Gamma_alpha d -> 0 < Gamma_beta d -> 0 < w ->
  let predicted := NegativeBinomial_dist (poisson_gamma_predictive d w) in
  let m := w * Gamma_alpha d / Gamma_beta d in
  exists true_pmf : nat -> R,
  (forall k, marginal Fpos0 Finf (pdf (Gamma_dist d)) (fun lam => pmf (Poisson_dist (mkPoisson (w * lam))) (Z.of_nat k)) (true_pmf k)) /\
  count_expectation (pmf predicted) (fun x => x) m /\ is_series (fun k => INR k * true_pmf k) m /\
  exists v_pred v_true, count_expectation (pmf predicted) (fun x => (x - m) ^ 2) v_pred /\
    is_series (fun k => (INR k - m) ^ 2 * true_pmf k) v_true /\
    v_pred - v_true = w * (1 - w) * Gamma_alpha d / Gamma_beta d ^ 2.
Proof. exact window_moments. Qed.

Print Assumptions C87_window.

(** C87 refuted: but for every window shorter than the unit of time the predicted spread is
    too large, for every longer one too small. *)
Theorem C87_window_refuted :
  forall (d : Gamma R) (w : R), 0 < Gamma_alpha d -> 0 < Gamma_beta d -> 0 < w -> w <> 1 ->
  let predicted := NegativeBinomial_dist (poisson_gamma_predictive d w) in
  let m := w * Gamma_alpha d / Gamma_beta d in
  exists (true_pmf : nat -> R) (v_pred v_true : R),
  (forall k, marginal Fpos0 Finf (pdf (Gamma_dist d)) (fun lam => pmf (Poisson_dist (mkPoisson (w * lam))) (Z.of_nat k)) (true_pmf k)) /\
  count_expectation (pmf predicted) (fun x => (x - m) ^ 2) v_pred /\
  is_series (fun k => (INR k - m) ^ 2 * true_pmf k) v_true /\
  (w < 1 -> v_true < v_pred) /\ (1 < w -> v_pred < v_true).
Proof. exact window_spread. Qed.

(** The window of the page, 35 minutes, and its prior. *)
Example C87_window_case :
  let d := Gamma_from_occurrences_in_intervals 3 1 in let w := 35 / 60 in
  0 < Gamma_alpha d /\ 0 < Gamma_beta d /\ 0 < w /\ w <> 1 /\ w * (1 - w) * Gamma_alpha d / Gamma_beta d ^ 2 = 35 / 48.
Proof. unfold Gamma_from_occurrences_in_intervals. simpl. repeat split; lra. Qed.

Print Assumptions C87_window_refuted.
