(** docs/examples/limit.md: predictions for a window of time. *)

From Coq Require Import Reals Lra Lia ZArith.
From Coquelicot Require Import Coquelicot.
From Verif Require Import Model.Num Model.Py Model.Dists Model.ScipyDist Model.Models.
From Verif Require Import Spec.Special Spec.Densities Spec.Bayes Spec.Joint Spec.Moments Spec.Normalised Spec.Limits Spec.Recovery.
From Verif Require Import Analysis.Improper Analysis.GammaBeta Analysis.GammaFacts.
From Verif Require Import Proofs.Pdfs Proofs.Normalised Proofs.Predictive Proofs.Sharp Proofs.Recovery.
From Coq Require Import List.
Import ListNotations.
Open Scope R_scope.

Lemma nbinom_second r p : 0 < r -> 0 < p <= 1 ->
  count_expectation (pmf (NegativeBinomial_dist (mkNegativeBinomial r p))) (fun x => x * (x - 1)) (r * (r + 1) * ((1 - p) / p) ^ 2).
Proof.
  intros Hr Hp. unfold count_expectation, NegativeBinomial_dist. cbn [NegativeBinomial_n NegativeBinomial_p].
  apply shift_series; [simpl INR; ring|]. apply shift_series; [simpl INR; ring|].
  apply (scaled_series _ (fun k => pmf (S_nbinom (r + 1 + 1) p) (Z.of_nat k))); [|apply nbinom_series; lra].
  intros k. rewrite !nbinom_pmf. rewrite !fact_simpl, !mult_INR, !rising_shift, !Rpower_plus, !Rpower_1 by lra.
  rewrite !S_INR. pose proof (pos_INR k). pose proof (INR_fact_lt_0 k). simpl pow. field. lra.
Qed.

Lemma nbinom_total r p : 0 < r -> 0 < p <= 1 ->
  count_expectation (pmf (NegativeBinomial_dist (mkNegativeBinomial r p))) (fun _ => 1) 1.
Proof.
  intros Hr Hp. unfold count_expectation. eapply is_series_ext; [|apply (nbinom_series r p); lra]. intros k. simpl. ring.
Qed.

Lemma nbinom_variance r p : 0 < r -> 0 < p <= 1 -> let m := r * (1 - p) / p in
  count_expectation (pmf (NegativeBinomial_dist (mkNegativeBinomial r p))) (fun x => (x - m) ^ 2) (r * (1 - p) / p ^ 2).
Proof.
  intros Hr Hp m. pose proof (nbinom_second r p Hr Hp) as H2. pose proof (nbinom_expectation r p Hr Hp) as H1.
  pose proof (nbinom_total r p Hr Hp) as H0. unfold count_expectation in *.
  set (f := fun k => pmf (NegativeBinomial_dist (mkNegativeBinomial r p)) (Z.of_nat k)) in *.
  pose proof (is_series_scal (V:=R_NormedModule) (1 - 2 * m) _ _ H1) as H1'.
  pose proof (is_series_scal (V:=R_NormedModule) (m ^ 2) _ _ H0) as H0'.
  pose proof (is_series_plus (V:=R_NormedModule) _ _ _ _ H2 (is_series_plus (V:=R_NormedModule) _ _ _ _ H1' H0')) as Q.
  assert (E : r * (1 - p) / p ^ 2 = r * (r + 1) * ((1 - p) / p) ^ 2 + ((1 - 2 * m) * m + m ^ 2 * 1)).
  { unfold m. field. lra. }
  rewrite E. revert Q. apply is_series_ext. intros k.
  change (INR k * (INR k - 1) * f k + ((1 - 2 * m) * (INR k * f k) + m ^ 2 * (1 * f k)) = (INR k - m) ^ 2 * f k). ring.
Qed.

(** The count in a window of [w] units of time, when the rate has the distribution [d]. *)
Lemma window_moments (d : Gamma R) (w : R) : 0 < Gamma_alpha d -> 0 < Gamma_beta d -> 0 < w ->
  let predicted := NegativeBinomial_dist (poisson_gamma_predictive d w) in
  let m := w * Gamma_alpha d / Gamma_beta d in
  exists true_pmf : nat -> R,
  (forall k, marginal Fpos0 Finf (pdf (Gamma_dist d)) (fun lam => pmf (Poisson_dist (mkPoisson (w * lam))) (Z.of_nat k)) (true_pmf k)) /\
  count_expectation (pmf predicted) (fun x => x) m /\ is_series (fun k => INR k * true_pmf k) m /\
  exists v_pred v_true, count_expectation (pmf predicted) (fun x => (x - m) ^ 2) v_pred /\
    is_series (fun k => (INR k - m) ^ 2 * true_pmf k) v_true /\
    v_pred - v_true = w * (1 - w) * Gamma_alpha d / Gamma_beta d ^ 2.
Proof.
  destruct d as [a b]. intros Ha Hb Hw predicted m. cbn [Gamma_alpha Gamma_beta] in Ha, Hb, m |- *.
  assert (Hp1 : 0 < b / (1 + b) <= 1).
  { split. apply Rdiv_lt_0_compat; lra. apply (Rmult_le_reg_r (1 + b)); [lra|]. unfold Rdiv. rewrite Rmult_assoc, Rinv_l by lra. lra. }
  assert (Hp2 : 0 < b / (w + b) <= 1).
  { split. apply Rdiv_lt_0_compat; lra. apply (Rmult_le_reg_r (w + b)); [lra|]. unfold Rdiv. rewrite Rmult_assoc, Rinv_l by lra. lra. }
  assert (Hwa : 0 < w * a) by nra.
  assert (Ep : predicted = NegativeBinomial_dist (mkNegativeBinomial (w * a) (b / (1 + b)))) by reflexivity.
  exists (fun k => pmf (NegativeBinomial_dist (mkNegativeBinomial a (b / (w + b)))) (Z.of_nat k)). split.
  { intros k. exact (poisson_gamma_marginal a b w k Ha Hb Hw). }
  assert (M1 : w * a * (1 - b / (1 + b)) / (b / (1 + b)) = m) by (unfold m; field; lra).
  assert (M2 : a * (1 - b / (w + b)) / (b / (w + b)) = m) by (unfold m; field; lra).
  split. { rewrite Ep, <- M1. now apply nbinom_expectation. }
  split. { rewrite <- M2. now apply (nbinom_expectation a (b / (w + b))). }
  exists (w * a * (1 - b / (1 + b)) / (b / (1 + b)) ^ 2), (a * (1 - b / (w + b)) / (b / (w + b)) ^ 2). split.
  { rewrite Ep, <- M1. now apply nbinom_variance. }
  split. { rewrite <- M2. now apply (nbinom_variance a (b / (w + b))). }
  field. lra.
Qed.

Lemma window_spread (d : Gamma R) (w : R) : 0 < Gamma_alpha d -> 0 < Gamma_beta d -> 0 < w -> w <> 1 ->
  let predicted := NegativeBinomial_dist (poisson_gamma_predictive d w) in
  let m := w * Gamma_alpha d / Gamma_beta d in
  exists (true_pmf : nat -> R) (v_pred v_true : R),
  (forall k, marginal Fpos0 Finf (pdf (Gamma_dist d)) (fun lam => pmf (Poisson_dist (mkPoisson (w * lam))) (Z.of_nat k)) (true_pmf k)) /\
  count_expectation (pmf predicted) (fun x => (x - m) ^ 2) v_pred /\
  is_series (fun k => (INR k - m) ^ 2 * true_pmf k) v_true /\
  (w < 1 -> v_true < v_pred) /\ (1 < w -> v_pred < v_true).
Proof.
  intros Ha Hb Hw H1 predicted m. destruct (window_moments d w Ha Hb Hw) as (q & Q & _ & _ & vp & vt & Vp & Vt & E).
  exists q, vp, vt. split; [exact Q|]. split; [exact Vp|]. split; [exact Vt|].
  assert (P : 0 < w * (Gamma_alpha d / Gamma_beta d ^ 2)).
  { apply Rmult_lt_0_compat; auto. apply Rdiv_lt_0_compat; auto. now apply pow_lt. }
  replace (w * (1 - w) * Gamma_alpha d / Gamma_beta d ^ 2) with ((1 - w) * (w * (Gamma_alpha d / Gamma_beta d ^ 2))) in E by (field; lra).
  split; intros H.
  - assert (0 < (1 - w) * (w * (Gamma_alpha d / Gamma_beta d ^ 2))) by (apply Rmult_lt_0_compat; lra). lra.
  - assert (0 < (w - 1) * (w * (Gamma_alpha d / Gamma_beta d ^ 2))) by (apply Rmult_lt_0_compat; lra).
    replace ((w - 1) * (w * (Gamma_alpha d / Gamma_beta d ^ 2))) with (- ((1 - w) * (w * (Gamma_alpha d / Gamma_beta d ^ 2)))) in * by ring. lra.
Qed.
