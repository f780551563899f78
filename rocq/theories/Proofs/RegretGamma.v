(** Regret of predicting with a learned rate under a gamma prior, and with a learned end of
    a uniform distribution under a Pareto prior. *)

From Coq Require Import Reals Lra Lia ZArith.
From Coquelicot Require Import Coquelicot.
From Verif Require Import Model.Num Model.Py Model.Dists Model.ScipyDist Model.Models.
From Verif Require Import Spec.Special Spec.Densities Spec.Bayes Spec.Prequential Spec.Regret.
From Verif Require Import Analysis.Improper Analysis.GammaBeta Analysis.GammaFacts Proofs.Pdfs Proofs.Conj Proofs.Predictive Proofs.Dirichlet Proofs.Prequential Proofs.LimitPredictive Proofs.Regret.
From Coq Require Import List.
Import ListNotations.
Open Scope R_scope.

Lemma ln_le_sub x : 0 < x -> ln x <= x - 1.
Proof.
  intros Hx. destruct (Req_dec x 1) as [->|D]; [rewrite ln_1; lra|].
  pose proof (exp_ineq1 (ln x)) as H. rewrite exp_ln in H by exact Hx. left.
  assert (ln x <> 0). { intros E. apply D. rewrite <- (exp_ln x Hx), E. apply exp_0. }
  specialize (H H0). lra.
Qed.

(** the likelihood is largest at a / b *)
Lemma kernel_le a b t : 0 < t -> 0 < b -> 0 <= a -> Rpower t a * exp (- (b * t)) <= Rpower (a / b) a * exp (- a).
Proof.
  intros Ht Hb [Ha|<-].
  - unfold Rpower. rewrite <- !exp_plus. apply exp_mono.
    assert (Hab : 0 < a / b) by now apply Rdiv_lt_0_compat.
    pose proof (ln_le_sub (t / (a / b)) ltac:(now apply Rdiv_lt_0_compat)) as H.
    rewrite ln_div in H by assumption.
    assert (a * (ln t - ln (a / b)) <= a * (t / (a / b) - 1)) by (apply Rmult_le_compat_l; lra).
    replace (a * (t / (a / b) - 1)) with (b * t - a) in H0 by (field; lra). lra.
  - unfold Rpower. rewrite !Rmult_0_l, Ropp_0, exp_0. rewrite !Rmult_1_l.
    rewrite <- exp_0. apply exp_mono. assert (0 < b * t) by now apply Rmult_lt_0_compat. lra.
Qed.

Lemma gamma_ratio alpha beta a b t c L : 0 < alpha -> 0 < beta -> 0 <= a -> 0 <= b -> 0 < t -> 0 < c ->
  pdf (Gamma_dist (mkGamma (alpha + a) (beta + b))) t = pdf (Gamma_dist (mkGamma alpha beta)) t * L / c ->
  L = Gamma_fun alpha / Gamma_fun (alpha + a) * (Rpower (beta + b) (alpha + a) / Rpower beta alpha) * (Rpower t a * exp (- (b * t))) * c.
Proof.
  intros Hal Hbe Ha Hb Ht Hc E. unfold Gamma_dist in E. cbn [Gamma_alpha Gamma_beta] in E.
  change (nlit 1 / ?x)%num with (1 / x) in E. rewrite !gamma_pdf in E by lra.
  pose proof (Gamma_fun_pos alpha Hal) as G1. pose proof (Gamma_fun_pos (alpha + a) ltac:(lra)) as G2.
  assert (P1 : 0 < Rpower beta alpha) by apply exp_pos. assert (P2 : 0 < Rpower t (alpha - 1)) by apply exp_pos.
  assert (P3 : 0 < exp (- (beta * t))) by apply exp_pos.
  replace (alpha + a - 1) with ((alpha - 1) + a) in E by ring. rewrite (Rpower_plus (alpha - 1) a t) in E.
  replace (- ((beta + b) * t)) with (- (beta * t) + - (b * t)) in E by ring. rewrite exp_plus in E.
  match type of E with ?l = ?k * L / c => assert (K : L = l * c * / k) by (rewrite E; field; repeat split; lra) end.
  rewrite K. field. repeat split; lra.
Qed.

Lemma gamma_factor_pos alpha beta a b : 0 < alpha -> 0 <= a -> 0 < gamma_factor alpha beta a b.
Proof.
  intros Hal Ha. unfold gamma_factor. pose proof (Gamma_fun_pos alpha Hal). pose proof (Gamma_fun_pos (alpha + a) ltac:(lra)).
  apply Rmult_lt_0_compat; [apply Rmult_lt_0_compat|apply Rmult_lt_0_compat; apply exp_pos]; apply Rdiv_lt_0_compat; try assumption; apply exp_pos.
Qed.

Lemma gamma_factor_none alpha beta : 0 < alpha -> gamma_factor alpha beta 0 0 = 1.
Proof.
  intros Ha. unfold gamma_factor. rewrite !Rplus_0_r. pose proof (Gamma_fun_pos alpha Ha). assert (0 < Rpower beta alpha) by apply exp_pos.
  replace (Rpower (0 / 0) 0) with 1 by (unfold Rpower; now rewrite Rmult_0_l, exp_0). rewrite Ropp_0, exp_0. field. lra.
Qed.

Section GammaPrior.
Context {O : Type} (lik : R -> O -> R) (update : Gamma R -> O -> res (Gamma R)) (predict : Gamma R -> O -> res R)
  (obs : O -> Prop) (sa sb : list O -> R) (prior : Gamma R).
Hypothesis Hal : 0 < Gamma_alpha prior.
Hypothesis Hbe : 0 < Gamma_beta prior.
Hypothesis loop : forall data, Forall obs data ->
  exists e c, one_by_one update predict prior data = Ok (e, c) /\ 0 < c /\ over1 Fpos0 Finf (fun t => likelihood lik data t * pdf (Gamma_dist prior) t) c.
Hypothesis posterior : forall data, Forall obs data ->
  bayes_posterior Fpos0 Finf (pdf (Gamma_dist prior)) (likelihood lik data)
    (pdf (Gamma_dist (mkGamma (Gamma_alpha prior + sa data) (Gamma_beta prior + sb data)))).
Hypothesis stats : forall data, Forall obs data -> data <> [] -> 0 <= sa data /\ 0 < sb data.
Hypothesis stats_nil : sa [] = 0 /\ sb [] = 0.

Lemma gamma_closed data : Forall obs data ->
  exists e c, one_by_one update predict prior data = Ok (e, c) /\ 0 < c /\
  forall t, 0 < t -> likelihood lik data t =
    Gamma_fun (Gamma_alpha prior) / Gamma_fun (Gamma_alpha prior + sa data) *
    (Rpower (Gamma_beta prior + sb data) (Gamma_alpha prior + sa data) / Rpower (Gamma_beta prior) (Gamma_alpha prior)) *
    (Rpower t (sa data) * exp (- (sb data * t))) * c.
Proof.
  intros F. destruct (loop data F) as (e & c & E & Hc & I). exists e, c. split; [exact E|]. split; [exact Hc|]. intros t Ht.
  destruct (posterior data F) as (ev & Hev & Iev & Hp).
  assert (ev = c) as ->.
  { refine (over1_uniq _ _ _ _ _ Iev _). unfold over1 in *. eapply is_RInt_gen_ext; [|exact I]. apply filter_forall. intros [u v] w _. cbn. ring. }
  assert (0 <= sa data /\ 0 <= sb data) as [S1 S2].
  { destruct data as [|o data]; [rewrite (proj1 stats_nil), (proj2 stats_nil); lra|]. destruct (stats (o :: data) F ltac:(discriminate)). lra. }
  apply gamma_ratio; try assumption. destruct prior as [al be]. apply Hp.
Qed.

Lemma gamma_regret :
  regret_at_most lik update predict (fun t => 0 < t) obs prior
    (fun data => gamma_factor (Gamma_alpha prior) (Gamma_beta prior) (sa data) (sb data)).
Proof.
  intros data F. destruct (gamma_closed data F) as (e & c & E & Hc & H). exists e, c. split; [exact E|]. intros t Ht.
  destruct data as [|o data].
  - rewrite (proj1 stats_nil), (proj2 stats_nil), gamma_factor_none by exact Hal. rewrite likelihood_nil. cbn [one_by_one] in E. injection E as <- <-. lra.
  - destruct (stats (o :: data) F ltac:(discriminate)) as [S1 S2]. rewrite (H t Ht). apply Rmult_le_compat_r; [lra|].
    apply Rmult_le_compat_l; [|now apply kernel_le].
    pose proof (Gamma_fun_pos _ Hal). pose proof (Gamma_fun_pos (Gamma_alpha prior + sa (o :: data)) ltac:(lra)).
    left. apply Rmult_lt_0_compat; apply Rdiv_lt_0_compat; try assumption; apply exp_pos.
Qed.

Lemma gamma_regret_exact :
  regret_exact lik update predict (fun t => 0 < t) obs prior
    (fun data => gamma_factor (Gamma_alpha prior) (Gamma_beta prior) (sa data) (sb data)) (fun data => data <> [] /\ 0 < sa data).
Proof.
  intros data F [N S1]. destruct (stats data F N) as [_ S2]. destruct (gamma_closed data F) as (e & c & E & Hc & H).
  assert (Ht : 0 < sa data / sb data) by now apply Rdiv_lt_0_compat.
  exists (sa data / sb data). split; [exact Ht|]. exists e, c. split; [exact E|]. split; [exact Hc|].
  rewrite (H _ Ht). unfold gamma_factor. do 4 f_equal. field. lra.
Qed.
End GammaPrior.

Lemma poisson_loop prior : 0 < Gamma_alpha prior -> 0 < Gamma_beta prior -> forall data : list nat, Forall (fun _ => True) data ->
  exists e c, one_by_one (fun d x => Ok (poisson_gamma (INR x) 1 d)) (fun d x => Ok (pmf (NegativeBinomial_dist (poisson_gamma_predictive d 1)) (Z.of_nat x))) prior data = Ok (e, c) /\ 0 < c /\
    over1 Fpos0 Finf (fun t => likelihood (fun lam (x : nat) => pmf (Poisson_dist (mkPoisson lam)) (Z.of_nat x)) data t * pdf (Gamma_dist prior) t) c.
Proof. intros Ha Hb data F. destruct (poisson_prequential prior data (conj Ha Hb) F) as (e & c & E & _ & Hc & I & _). exists e, c. auto. Qed.

Lemma poisson_stats (data : list nat) : data <> [] -> 0 <= INR (sumN data) /\ 0 < INR (length data).
Proof. intros N. split; [apply pos_INR|]. apply lt_0_INR. destruct data; [congruence|simpl; lia]. Qed.

Lemma poisson_regret prior : 0 < Gamma_alpha prior -> 0 < Gamma_beta prior ->
  regret_at_most (fun lam (x : nat) => pmf (Poisson_dist (mkPoisson lam)) (Z.of_nat x))
    (fun d x => Ok (poisson_gamma (INR x) 1 d))
    (fun d x => Ok (pmf (NegativeBinomial_dist (poisson_gamma_predictive d 1)) (Z.of_nat x)))
    (fun t => 0 < t) (fun _ => True) prior
    (fun data => gamma_factor (Gamma_alpha prior) (Gamma_beta prior) (INR (sumN data)) (INR (length data))).
Proof.
  intros Ha Hb. apply (gamma_regret _ _ _ _ (fun data => INR (sumN data)) (fun data => INR (length data)) prior Ha Hb).
  - now apply poisson_loop.
  - intros data _. exact (poisson_gamma_bayes prior data Ha Hb).
  - intros data _. apply poisson_stats.
  - split; reflexivity.
Qed.

Lemma poisson_regret_exact prior : 0 < Gamma_alpha prior -> 0 < Gamma_beta prior ->
  regret_exact (fun lam (x : nat) => pmf (Poisson_dist (mkPoisson lam)) (Z.of_nat x))
    (fun d x => Ok (poisson_gamma (INR x) 1 d))
    (fun d x => Ok (pmf (NegativeBinomial_dist (poisson_gamma_predictive d 1)) (Z.of_nat x)))
    (fun t => 0 < t) (fun _ => True) prior
    (fun data => gamma_factor (Gamma_alpha prior) (Gamma_beta prior) (INR (sumN data)) (INR (length data)))
    (fun data => (0 < sumN data)%nat).
Proof.
  intros Ha Hb data F N.
  apply (gamma_regret_exact _ _ _ (fun _ => True) (fun data => INR (sumN data)) (fun data => INR (length data)) prior Ha Hb); auto.
  - now apply poisson_loop.
  - intros l _. exact (poisson_gamma_bayes prior l Ha Hb).
  - intros l _. apply poisson_stats.
  - split; [|now apply lt_0_INR]. intros ->. unfold sumN in N. simpl in N. lia.
Qed.

Lemma known_shape_loop alpha prior : 0 < alpha -> 0 < Gamma_alpha prior -> 0 < Gamma_beta prior -> forall data, Forall (fun x => 0 < x) data ->
  exists e c, one_by_one (fun d x => Ok (gamma_known_shape x 1 alpha d)) (fun d x => Ok (pdf (CompoundGamma_dist (gamma_known_shape_predictive d alpha)) x)) prior data = Ok (e, c) /\ 0 < c /\
    over1 Fpos0 Finf (fun t => likelihood (fun rate x => pdf (Gamma_dist (mkGamma alpha rate)) x) data t * pdf (Gamma_dist prior) t) c.
Proof. intros Hs Ha Hb data F. destruct (gamma_known_shape_prequential alpha Hs prior data (conj Ha Hb) F) as (e & c & E & _ & Hc & I & _). exists e, c. auto. Qed.

Lemma known_shape_stats alpha data : 0 < alpha -> Forall (fun x => 0 < x) data -> data <> [] -> 0 <= INR (length data) * alpha /\ 0 < sumR data.
Proof.
  intros Ha F N. split; [apply Rmult_le_pos; [apply pos_INR|lra]|]. now apply sumR_pos.
Qed.

Lemma known_shape_posterior alpha prior data : 0 < alpha -> 0 < Gamma_alpha prior -> 0 < Gamma_beta prior -> Forall (fun x => 0 < x) data ->
  bayes_posterior Fpos0 Finf (pdf (Gamma_dist prior)) (likelihood (fun rate x => pdf (Gamma_dist (mkGamma alpha rate)) x) data)
    (pdf (Gamma_dist (mkGamma (Gamma_alpha prior + INR (length data) * alpha) (Gamma_beta prior + sumR data)))).
Proof. intros Hs Ha Hb F. exact (gamma_known_shape_bayes prior alpha data Ha Hb Hs F). Qed.

Lemma known_shape_regret alpha prior : 0 < alpha -> 0 < Gamma_alpha prior -> 0 < Gamma_beta prior ->
  regret_at_most (fun rate x => pdf (Gamma_dist (mkGamma alpha rate)) x)
    (fun d x => Ok (gamma_known_shape x 1 alpha d))
    (fun d x => Ok (pdf (CompoundGamma_dist (gamma_known_shape_predictive d alpha)) x))
    (fun t => 0 < t) (fun x => 0 < x) prior
    (fun data => gamma_factor (Gamma_alpha prior) (Gamma_beta prior) (INR (length data) * alpha) (sumR data)).
Proof.
  intros Hs Ha Hb. apply (gamma_regret _ _ _ _ (fun data => INR (length data) * alpha) (fun data => sumR data) prior Ha Hb).
  - now apply known_shape_loop.
  - intros data F. now apply known_shape_posterior.
  - intros data F. now apply known_shape_stats.
  - split; [simpl; ring|reflexivity].
Qed.

Lemma known_shape_regret_exact alpha prior : 0 < alpha -> 0 < Gamma_alpha prior -> 0 < Gamma_beta prior ->
  regret_exact (fun rate x => pdf (Gamma_dist (mkGamma alpha rate)) x)
    (fun d x => Ok (gamma_known_shape x 1 alpha d))
    (fun d x => Ok (pdf (CompoundGamma_dist (gamma_known_shape_predictive d alpha)) x))
    (fun t => 0 < t) (fun x => 0 < x) prior
    (fun data => gamma_factor (Gamma_alpha prior) (Gamma_beta prior) (INR (length data) * alpha) (sumR data))
    (fun data => data <> []).
Proof.
  intros Hs Ha Hb data F N.
  apply (gamma_regret_exact _ _ _ (fun x => 0 < x) (fun data => INR (length data) * alpha) (fun data => sumR data) prior Ha Hb); auto.
  - now apply known_shape_loop.
  - intros l Fl. now apply known_shape_posterior.
  - intros l Fl. now apply known_shape_stats.
  - split; [simpl; ring|reflexivity].
  - split; [exact N|]. apply Rmult_lt_0_compat; [|exact Hs]. apply lt_0_INR. destruct data; [congruence|simpl; lia].
Qed.

(** ** the size of the factor *)
Lemma fact_kernel k : INR k ^ k * exp (- INR k) <= INR (fact k).
Proof.
  pose proof (poisson_bounded (INR k) k (pos_INR k)) as [_ H]. pose proof (INR_fact_lt_0 k) as Hf.
  apply (Rmult_le_reg_r (/ INR (fact k))); [now apply Rinv_0_lt_compat|]. rewrite Rinv_r by lra. unfold Rdiv in H. lra.
Qed.

Lemma rising_fact alpha k : 1 <= alpha -> INR (fact k) <= rising alpha k.
Proof.
  intros Ha. induction k as [|k IH]; [simpl; lra|]. cbn [rising]. rewrite fact_simpl, mult_INR, S_INR.
  pose proof (INR_fact_lt_0 k). pose proof (pos_INR k). rewrite Rmult_comm. apply Rmult_le_compat; lra.
Qed.

Lemma pow_quot x y k : 0 < y -> (x / y) ^ k = x ^ k / y ^ k.
Proof. intros Hy. unfold Rdiv. now rewrite Rpow_mult_distr, pow_inv. Qed.

Lemma gamma_factor_le alpha beta k b : 1 <= alpha -> 0 < beta -> 0 < b ->
  gamma_factor alpha beta (INR k) b <= Rpower (1 + b / beta) alpha * (1 + beta / b) ^ k.
Proof.
  intros Ha Hbe Hb. unfold gamma_factor. rewrite Gamma_fun_rising by lra.
  pose proof (Gamma_fun_pos alpha ltac:(lra)) as G. pose proof (rising_fact alpha k Ha) as Rf. pose proof (INR_fact_lt_0 k) as Hf.
  assert (E1 : Rpower (INR k / b) (INR k) = INR k ^ k / b ^ k).
  { destruct k as [|k]; [unfold Rpower; simpl; rewrite Rmult_0_l, exp_0; field|]. rewrite Rpower_pow by (apply Rdiv_lt_0_compat; [apply lt_0_INR; lia|exact Hb]).
    now apply pow_quot. }
  rewrite E1, Rpower_plus, (Rpower_pow k) by lra.
  replace (1 + b / beta) with ((beta + b) / beta) by (field; lra). replace (1 + beta / b) with ((beta + b) / b) by (field; lra).
  assert (E2 : Rpower ((beta + b) / beta) alpha = Rpower (beta + b) alpha / Rpower beta alpha).
  { unfold Rpower. rewrite ln_div by lra. rewrite Rmult_minus_distr_l. unfold Rminus. rewrite exp_plus, exp_Ropp. reflexivity. }
  rewrite E2, pow_quot by lra.
  assert (P1 : 0 < Rpower (beta + b) alpha) by apply exp_pos. assert (P2 : 0 < Rpower beta alpha) by apply exp_pos.
  assert (P3 : 0 < (beta + b) ^ k) by (apply pow_lt; lra). assert (P4 : 0 < b ^ k) by (now apply pow_lt).
  pose proof (fact_kernel k) as K.
  replace (Gamma_fun alpha / (rising alpha k * Gamma_fun alpha) * (Rpower (beta + b) alpha * (beta + b) ^ k / Rpower beta alpha) * (INR k ^ k / b ^ k * exp (- INR k)))
    with (Rpower (beta + b) alpha / Rpower beta alpha * ((beta + b) ^ k / b ^ k) * (INR k ^ k * exp (- INR k) / rising alpha k)) by (field; repeat split; lra).
  set (Q := Rpower (beta + b) alpha / Rpower beta alpha * ((beta + b) ^ k / b ^ k)).
  assert (HQ : 0 < Q) by (unfold Q; apply Rmult_lt_0_compat; apply Rdiv_lt_0_compat; assumption).
  rewrite <- (Rmult_1_r Q) at 2. apply Rmult_le_compat_l; [lra|]. apply Rle_div_l; lra.
Qed.
