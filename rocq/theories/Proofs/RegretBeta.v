(** Regret of predicting with a learned probability under any beta prior, and with a
    learned variance. *)

From Coq Require Import Reals Lra Lia ZArith.
From Coquelicot Require Import Coquelicot.
From Verif Require Import Model.Num Model.Py Model.Dists Model.ScipyDist Model.Models.
From Verif Require Import Spec.Special Spec.Densities Spec.Bayes Spec.Prequential Spec.Joint Spec.Regret.
From Verif Require Import Analysis.Improper Analysis.GammaBeta Analysis.GammaFacts Proofs.Pdfs Proofs.Conj Proofs.Predictive Proofs.Dirichlet Proofs.Prequential Proofs.Regret Proofs.RegretGamma.
From Coq Require Import List.
Import ListNotations.
Open Scope R_scope.

Lemma Rpower_0 x : Rpower x 0 = 1.
Proof. unfold Rpower. now rewrite Rmult_0_l, exp_0. Qed.
Lemma Rpower_1_l x : Rpower 1 x = 1.
Proof. unfold Rpower. now rewrite ln_1, Rmult_0_r, exp_0. Qed.
Lemma Rpower_le_1 x a : 0 < x <= 1 -> 0 <= a -> Rpower x a <= 1.
Proof.
  intros [Hx H1] Ha. unfold Rpower. rewrite <- exp_0. apply exp_mono.
  pose proof (ln_le_sub x Hx). nra.
Qed.

(** the likelihood is largest at a / (a + b) *)
Lemma beta_kernel_le a b t : 0 < t < 1 -> 0 <= a -> 0 <= b -> 0 < a + b ->
  Rpower t a * Rpower (1 - t) b <= Rpower (a / (a + b)) a * Rpower (b / (a + b)) b.
Proof.
  intros Ht [Ha|<-] [Hb|<-] Hab; try lra.
  - unfold Rpower. rewrite <- !exp_plus. apply exp_mono.
    assert (P : 0 < a / (a + b)) by now apply Rdiv_lt_0_compat. assert (Q : 0 < b / (a + b)) by now apply Rdiv_lt_0_compat.
    pose proof (ln_le_sub (t / (a / (a + b))) ltac:(apply Rdiv_lt_0_compat; lra)) as H1. rewrite ln_div in H1 by lra.
    pose proof (ln_le_sub ((1 - t) / (b / (a + b))) ltac:(apply Rdiv_lt_0_compat; lra)) as H2. rewrite ln_div in H2 by lra.
    assert (K1 : a * (ln t - ln (a / (a + b))) <= a * (t / (a / (a + b)) - 1)) by (apply Rmult_le_compat_l; lra).
    assert (K2 : b * (ln (1 - t) - ln (b / (a + b))) <= b * ((1 - t) / (b / (a + b)) - 1)) by (apply Rmult_le_compat_l; lra).
    replace (a * (t / (a / (a + b)) - 1)) with ((a + b) * t - a) in K1 by (field; lra).
    replace (b * ((1 - t) / (b / (a + b)) - 1)) with ((a + b) * (1 - t) - b) in K2 by (field; lra). lra.
  - rewrite !Rpower_0, Rplus_0_r. replace (a / a) with 1 by (field; lra). rewrite Rpower_1_l.
    pose proof (Rpower_le_1 t a ltac:(lra) ltac:(lra)). lra.
  - rewrite !Rpower_0, Rplus_0_l. replace (b / b) with 1 by (field; lra). rewrite Rpower_1_l.
    pose proof (Rpower_le_1 (1 - t) b ltac:(lra) ltac:(lra)). lra.
Qed.

Lemma beta_ratio alpha beta a b t c L : 0 < alpha -> 0 < beta -> 0 <= a -> 0 <= b -> 0 < t < 1 -> 0 < c ->
  pdf (Beta_dist (mkBeta (alpha + a) (beta + b))) t = pdf (Beta_dist (mkBeta alpha beta)) t * L / c ->
  L = Beta_fun alpha beta / Beta_fun (alpha + a) (beta + b) * (Rpower t a * Rpower (1 - t) b) * c.
Proof.
  intros Hal Hbe Ha Hb Ht Hc E. unfold Beta_dist in E. cbn [Beta_alpha Beta_beta] in E.
  rewrite !beta_pdf in E by lra.
  pose proof (Beta_fun_pos alpha beta Hal Hbe) as G1. pose proof (Beta_fun_pos (alpha + a) (beta + b) ltac:(lra) ltac:(lra)) as G2.
  assert (P2 : 0 < Rpower t (alpha - 1)) by apply exp_pos.
  assert (P3 : 0 < Rpower (1 - t) (beta - 1)) by apply exp_pos.
  replace (alpha + a - 1) with ((alpha - 1) + a) in E by ring. rewrite (Rpower_plus (alpha - 1) a t) in E.
  replace (beta + b - 1) with ((beta - 1) + b) in E by ring. rewrite (Rpower_plus (beta - 1) b (1 - t)) in E.
  match type of E with ?l = ?k * L / c => assert (K : L = l * c * / k) by (rewrite E; field; repeat split; lra) end.
  rewrite K. field. repeat split; lra.
Qed.

Lemma beta_factor_none alpha beta : 0 < alpha -> 0 < beta -> beta_factor alpha beta 0 0 = 1.
Proof.
  intros Ha Hb. unfold beta_factor. rewrite !Rpower_0, !Rplus_0_r. pose proof (Beta_fun_pos alpha beta Ha Hb). field. lra.
Qed.

Section BetaPrior.
Context {O : Type} (lik : R -> O -> R) (update : Beta R -> O -> res (Beta R)) (predict : Beta R -> O -> res R)
  (obs : O -> Prop) (sa sb : list O -> R) (prior : Beta R).
Hypothesis Hal : 0 < Beta_alpha prior.
Hypothesis Hbe : 0 < Beta_beta prior.
Hypothesis loop : forall data, Forall obs data ->
  exists e c, one_by_one update predict prior data = Ok (e, c) /\ 0 < c /\ over1 Fpos0 Fone (fun t => likelihood lik data t * pdf (Beta_dist prior) t) c.
Hypothesis posterior : forall data, Forall obs data ->
  bayes_posterior Fpos0 Fone (pdf (Beta_dist prior)) (likelihood lik data)
    (pdf (Beta_dist (mkBeta (Beta_alpha prior + sa data) (Beta_beta prior + sb data)))).
Hypothesis stats : forall data, Forall obs data -> 0 <= sa data /\ 0 <= sb data.

Lemma beta_closed data : Forall obs data ->
  exists e c, one_by_one update predict prior data = Ok (e, c) /\ 0 < c /\
  forall t, 0 < t < 1 -> likelihood lik data t =
    Beta_fun (Beta_alpha prior) (Beta_beta prior) / Beta_fun (Beta_alpha prior + sa data) (Beta_beta prior + sb data) *
    (Rpower t (sa data) * Rpower (1 - t) (sb data)) * c.
Proof.
  intros F. destruct (loop data F) as (e & c & E & Hc & I). exists e, c. split; [exact E|]. split; [exact Hc|]. intros t Ht.
  destruct (posterior data F) as (ev & Hev & Iev & Hp).
  assert (ev = c) as ->.
  { refine (over1_uniq _ _ _ _ _ Iev _). unfold over1 in *. eapply is_RInt_gen_ext; [|exact I]. apply filter_forall. intros [u v] w _. cbn. ring. }
  destruct (stats data F) as [S1 S2].
  apply beta_ratio; try assumption. destruct prior as [al be]. apply Hp.
Qed.

Lemma beta_regret :
  regret_at_most lik update predict (fun t => 0 < t < 1) obs prior
    (fun data => beta_factor (Beta_alpha prior) (Beta_beta prior) (sa data) (sb data)).
Proof.
  intros data F. destruct (beta_closed data F) as (e & c & E & Hc & H). exists e, c. split; [exact E|]. intros t Ht.
  destruct (stats data F) as [S1 S2]. rewrite (H t Ht). apply Rmult_le_compat_r; [lra|].
  destruct (Req_dec (sa data + sb data) 0) as [Z|Z].
  - replace (sa data) with 0 by lra. replace (sb data) with 0 by lra. rewrite beta_factor_none by assumption. rewrite !Rpower_0, !Rplus_0_r.
    pose proof (Beta_fun_pos _ _ Hal Hbe). right. field. lra.
  - apply Rmult_le_compat_l; [|apply beta_kernel_le; lra].
    left. apply Rdiv_lt_0_compat; apply Beta_fun_pos; lra.
Qed.

Lemma beta_regret_exact :
  regret_exact lik update predict (fun t => 0 < t < 1) obs prior
    (fun data => beta_factor (Beta_alpha prior) (Beta_beta prior) (sa data) (sb data)) (fun data => 0 < sa data /\ 0 < sb data).
Proof.
  intros data F [S1 S2]. destruct (beta_closed data F) as (e & c & E & Hc & H).
  assert (Ht : 0 < sa data / (sa data + sb data) < 1).
  { split; [apply Rdiv_lt_0_compat; lra|]. apply Rlt_div_l; lra. }
  exists (sa data / (sa data + sb data)). split; [exact Ht|]. exists e, c. split; [exact E|]. split; [exact Hc|].
  rewrite (H _ Ht). unfold beta_factor. do 4 f_equal. field. lra.
Qed.
End BetaPrior.

(** ** binomial counts *)
Definition failures (data : list (nat * nat)) : R := INR (sumN (map fst data)) - INR (sumN (map snd data)).

Lemma failures_pos (data : list (nat * nat)) : Forall (fun o => (snd o <= fst o)%nat) data -> 0 <= INR (sumN (map snd data)) /\ 0 <= failures data.
Proof.
  intros F. split; [apply pos_INR|]. unfold failures.
  enough (INR (sumN (map snd data)) <= INR (sumN (map fst data))) by lra. apply le_INR.
  induction F as [|o l Ho F IH]; [reflexivity|]. unfold sumN in *. simpl. lia.
Qed.

Lemma binomial_loop prior : 0 < Beta_alpha prior -> 0 < Beta_beta prior -> forall data : list (nat * nat), Forall (fun o => (snd o <= fst o)%nat) data ->
  exists e c, one_by_one (fun d o => Ok (binomial_beta (INR (fst o)) (INR (snd o)) d))
    (fun d o => Ok (pmf (BetaBinomial_dist (binomial_beta_predictive (INR (fst o)) d)) (Z.of_nat (snd o)))) prior data = Ok (e, c) /\ 0 < c /\
    over1 Fpos0 Fone (fun t => likelihood (fun p (o : nat * nat) => pmf (Binomial_dist (mkBinomial (INR (fst o)) p)) (Z.of_nat (snd o))) data t * pdf (Beta_dist prior) t) c.
Proof. intros Ha Hb data F. destruct (binomial_prequential prior data (conj Ha Hb) F) as (e & c & E & _ & Hc & I & _). exists e, c. auto. Qed.

Lemma binomial_any_posterior prior data : 0 < Beta_alpha prior -> 0 < Beta_beta prior -> Forall (fun o : nat * nat => (snd o <= fst o)%nat) data ->
  bayes_posterior Fpos0 Fone (pdf (Beta_dist prior))
    (likelihood (fun p o => pmf (Binomial_dist (mkBinomial (INR (fst o)) p)) (Z.of_nat (snd o))) data)
    (pdf (Beta_dist (mkBeta (Beta_alpha prior + INR (sumN (map snd data))) (Beta_beta prior + failures data)))).
Proof.
  intros Ha Hb F. pose proof (binomial_beta_bayes prior data Ha Hb F) as H. unfold binomial_beta in H. unfold failures.
  match type of H with bayes_posterior _ _ _ _ (pdf (Beta_dist ?d)) =>
    replace (mkBeta (Beta_alpha prior + INR (sumN (map snd data))) (Beta_beta prior + (INR (sumN (map fst data)) - INR (sumN (map snd data))))) with d
      by (unfold get_binomial_beta_posterior_params; simpl; f_equal; ring) end.
  exact H.
Qed.

Lemma binomial_any_regret prior : 0 < Beta_alpha prior -> 0 < Beta_beta prior ->
  regret_at_most (fun p (o : nat * nat) => pmf (Binomial_dist (mkBinomial (INR (fst o)) p)) (Z.of_nat (snd o)))
    (fun d o => Ok (binomial_beta (INR (fst o)) (INR (snd o)) d))
    (fun d o => Ok (pmf (BetaBinomial_dist (binomial_beta_predictive (INR (fst o)) d)) (Z.of_nat (snd o))))
    (fun p => 0 < p < 1) (fun o => (snd o <= fst o)%nat) prior
    (fun data => beta_factor (Beta_alpha prior) (Beta_beta prior) (INR (sumN (map snd data))) (INR (sumN (map fst data)) - INR (sumN (map snd data)))).
Proof.
  intros Ha Hb. apply (beta_regret _ _ _ _ (fun data => INR (sumN (map snd data))) failures prior Ha Hb).
  - now apply binomial_loop.
  - intros data F. now apply binomial_any_posterior.
  - apply failures_pos.
Qed.

Lemma binomial_any_regret_exact prior : 0 < Beta_alpha prior -> 0 < Beta_beta prior ->
  regret_exact (fun p (o : nat * nat) => pmf (Binomial_dist (mkBinomial (INR (fst o)) p)) (Z.of_nat (snd o)))
    (fun d o => Ok (binomial_beta (INR (fst o)) (INR (snd o)) d))
    (fun d o => Ok (pmf (BetaBinomial_dist (binomial_beta_predictive (INR (fst o)) d)) (Z.of_nat (snd o))))
    (fun p => 0 < p < 1) (fun o => (snd o <= fst o)%nat) prior
    (fun data => beta_factor (Beta_alpha prior) (Beta_beta prior) (INR (sumN (map snd data))) (INR (sumN (map fst data)) - INR (sumN (map snd data))))
    (fun data => (0 < sumN (map snd data) < sumN (map fst data))%nat).
Proof.
  intros Ha Hb data F [N1 N2].
  apply (beta_regret_exact _ _ _ (fun o : nat * nat => (snd o <= fst o)%nat) (fun data => INR (sumN (map snd data))) failures prior Ha Hb); auto.
  - now apply binomial_loop.
  - intros l Fl. now apply binomial_any_posterior.
  - apply failures_pos.
  - split; [now apply lt_0_INR|]. unfold failures. apply lt_INR in N2. lra.
Qed.

(** ** negative binomial counts *)
Section NegBin.
Variables (major minor micro : nat) (rest : list nat) (r : R) (prior : Beta R).
Hypothesis Hr : 0 < r.
Hypothesis Hv : (1 < major \/ (major = 1 /\ 12 <= minor))%nat.
Hypothesis Ha : 0 < Beta_alpha prior.
Hypothesis Hb : 0 < Beta_beta prior.

Let lik := fun p (x : nat) => pmf (NegativeBinomial_dist (mkNegativeBinomial r p)) (Z.of_nat x).
Let update := fun (d : Beta R) (x : nat) => Ok (negative_binomial_beta r 1 (INR x) d).
Let predict := fun (d : Beta R) (x : nat) => let* D := BetaNegativeBinomial_dist (major :: minor :: micro :: rest) (negative_binomial_beta_predictive r d) in Ok (pmf D (Z.of_nat x)).

Lemma negbin_loop : forall data : list nat, Forall (fun _ => True) data ->
  exists e c, one_by_one update predict prior data = Ok (e, c) /\ 0 < c /\ over1 Fpos0 Fone (fun t => likelihood lik data t * pdf (Beta_dist prior) t) c.
Proof. intros data F. destruct (negative_binomial_prequential major minor micro rest r Hr Hv prior data (conj Ha Hb) F) as (e & c & E & _ & Hc & I & _). exists e, c. auto. Qed.

Lemma negbin_posterior : forall data : list nat, Forall (fun _ => True) data ->
  bayes_posterior Fpos0 Fone (pdf (Beta_dist prior)) (likelihood lik data)
    (pdf (Beta_dist (mkBeta (Beta_alpha prior + r * INR (length data)) (Beta_beta prior + INR (sumN data))))).
Proof. intros data _. exact (negative_binomial_beta_bayes prior r data Ha Hb Hr). Qed.

Lemma negbin_stats : forall data : list nat, Forall (fun _ => True) data -> 0 <= r * INR (length data) /\ 0 <= INR (sumN data).
Proof. intros data _. split; [apply Rmult_le_pos; [lra|apply pos_INR]|apply pos_INR]. Qed.

Lemma negbin_regret : regret_at_most lik update predict (fun p => 0 < p < 1) (fun _ => True) prior
    (fun data => beta_factor (Beta_alpha prior) (Beta_beta prior) (r * INR (length data)) (INR (sumN data))).
Proof.
  exact (beta_regret lik update predict (fun _ => True) (fun data => r * INR (length data)) (fun data => INR (sumN data)) prior Ha Hb
    negbin_loop negbin_posterior negbin_stats).
Qed.

Lemma negbin_regret_exact : regret_exact lik update predict (fun p => 0 < p < 1) (fun _ => True) prior
    (fun data => beta_factor (Beta_alpha prior) (Beta_beta prior) (r * INR (length data)) (INR (sumN data)))
    (fun data => (0 < sumN data)%nat).
Proof.
  intros data F N.
  apply (beta_regret_exact lik update predict (fun _ => True) (fun data => r * INR (length data)) (fun data => INR (sumN data)) prior Ha Hb
    negbin_loop negbin_posterior negbin_stats data F).
  split; [|now apply lt_0_INR]. apply Rmult_lt_0_compat; [exact Hr|]. apply lt_0_INR. destruct data; [unfold sumN in N; simpl in N; lia|simpl; lia].
Qed.
End NegBin.

(** ** a learned variance *)
Lemma invgamma_ratio alpha beta a b v c L : 0 < alpha -> 0 < beta -> 0 <= a -> 0 <= b -> 0 < v -> 0 < c ->
  pdf (InverseGamma_dist (mkInverseGamma (alpha + a) (beta + b))) v = pdf (InverseGamma_dist (mkInverseGamma alpha beta)) v * L / c ->
  L = Gamma_fun alpha / Gamma_fun (alpha + a) * (Rpower (beta + b) (alpha + a) / Rpower beta alpha) * (Rpower (/ v) a * exp (- (b * / v))) * c.
Proof.
  intros Hal Hbe Ha Hb Hv Hc E. unfold InverseGamma_dist in E. cbn [InverseGamma_alpha InverseGamma_beta] in E.
  rewrite !invgamma_pdf in E by lra.
  pose proof (Gamma_fun_pos alpha Hal) as G1. pose proof (Gamma_fun_pos (alpha + a) ltac:(lra)) as G2.
  assert (P1 : 0 < Rpower beta alpha) by apply exp_pos. assert (P2 : 0 < Rpower v (- alpha - 1)) by apply exp_pos.
  assert (P3 : 0 < exp (- (beta / v))) by apply exp_pos.
  replace (- (alpha + a) - 1) with ((- alpha - 1) + - a) in E by ring. rewrite (Rpower_plus (- alpha - 1) (- a) v) in E.
  replace (- ((beta + b) / v)) with (- (beta / v) + - (b * / v)) in E by (field; lra). rewrite exp_plus in E.
  replace (Rpower v (- a)) with (Rpower (/ v) a) in E by (unfold Rpower; rewrite ln_Rinv by exact Hv; f_equal; ring).
  match type of E with ?l = ?k * L / c => assert (K : L = l * c * / k) by (rewrite E; field; repeat split; lra) end.
  rewrite K. field. repeat split; lra.
Qed.

Definition scatter (mu : R) (data : list R) : R := sumR (map (fun x => (x - mu) ^ 2) data).

Lemma scatter_expand mu data : sumR (map (fun x => x ^ 2) data) - 2 * mu * sumR data + INR (length data) * mu ^ 2 = scatter mu data.
Proof.
  unfold scatter. induction data as [|x l IH]; [simpl; ring|]. cbn [map]. cbn [length]. rewrite S_INR. unfold sumR in *. cbn [fold_right]. rewrite <- IH. ring.
Qed.

Lemma scatter_pos mu data : Forall (fun x => x <> mu) data -> data <> [] -> 0 < scatter mu data.
Proof.
  intros F N. apply sumR_pos; [|destruct data; [congruence|discriminate]]. apply Forall_forall. intros y Hy. apply in_map_iff in Hy. destruct Hy as (x & <- & Hx).
  rewrite Forall_forall in F. specialize (F x Hx). assert (x - mu <> 0) by lra. rewrite <- Rsqr_pow2. now apply Rlt_0_sqr.
Qed.

Lemma scatter_nonneg mu data : 0 <= scatter mu data.
Proof. unfold scatter. induction data as [|x l IH]; [simpl; lra|]. unfold sumR in *. cbn [map fold_right]. pose proof (pow2_ge_0 (x - mu)). lra. Qed.

Lemma variance_dist_pdf d : variance_ok d -> variance_dist d = InverseGamma_dist (mkInverseGamma (variance_shape d) (variance_scale d)) /\ 0 < variance_shape d /\ 0 < variance_scale d.
Proof.
  destruct d as [[a b]|[nu s]]; cbn; intros [H1 H2].
  - split; [reflexivity|]. split; assumption.
  - split; [reflexivity|]. split; [lra|]. assert (0 < nu * s) by now apply Rmult_lt_0_compat. lra.
Qed.

Section Variance.
Variables (mu : R) (prior : VariancePrior R).
Hypothesis ok : variance_ok prior.
Let lik := fun v x => pdf (Normal_dist (mkNormal mu (sqrt v))) x.
Let update := fun (d : VariancePrior R) (x : R) => Ok (normal_known_mean x (x ^ 2) 1 mu d).
Let predict := fun (d : VariancePrior R) (x : R) => Ok (pdf (StudentT_dist (normal_known_mean_predictive mu d)) x).
Let factor := fun data => gamma_factor (variance_shape prior) (variance_scale prior) (INR (length data) / 2) (sumR (map (fun x => (x - mu) ^ 2) data) / 2).

Lemma variance_closed (data : list R) :
  exists e c, one_by_one update predict prior data = Ok (e, c) /\ 0 < c /\
  forall v, 0 < v -> likelihood lik data v =
    Gamma_fun (variance_shape prior) / Gamma_fun (variance_shape prior + INR (length data) / 2) *
    (Rpower (variance_scale prior + scatter mu data / 2) (variance_shape prior + INR (length data) / 2) / Rpower (variance_scale prior) (variance_shape prior)) *
    (Rpower (/ v) (INR (length data) / 2) * exp (- (scatter mu data / 2 * / v))) * c.
Proof.
  assert (F : Forall (fun _ : R => True) data) by (apply Forall_forall; auto).
  destruct (normal_known_mean_prequential mu prior data ok F) as (e & c & E & _ & Hc & I & _).
  exists e, c. split; [exact E|]. split; [exact Hc|]. intros v Hv.
  destruct (variance_dist_pdf prior ok) as (D & HA & HB). rewrite D in I.
  destruct (normal_known_mean_ig_bayes (mkInverseGamma (variance_shape prior) (variance_scale prior)) mu data HA HB) as (ev & Hev & Iev & Hp).
  assert (ev = c) as ->.
  { refine (over1_uniq _ _ _ _ _ Iev _). unfold over1 in *. eapply is_RInt_gen_ext; [|exact I]. apply filter_forall. intros [u w] z _. cbn. ring. }
  apply invgamma_ratio; try assumption.
  - pose proof (pos_INR (length data)). lra.
  - pose proof (scatter_nonneg mu data). lra.
  - rewrite <- Hp. unfold normal_known_mean_inverse_gamma_prior. cbn [InverseGamma_alpha InverseGamma_beta].
    f_equal. f_equal. rewrite <- scatter_expand. cbn. f_equal; field.
Qed.

Lemma variance_regret : regret_at_most lik update predict (fun v => 0 < v) (fun x => x <> mu) prior factor.
Proof.
  intros data F. destruct (variance_closed data) as (e & c & E & Hc & H). exists e, c. split; [exact E|]. intros v Hv.
  destruct (variance_dist_pdf prior ok) as (_ & HA & HB).
  destruct data as [|x data].
  - unfold factor. cbn [length map sumR fold_right INR]. unfold Rdiv. rewrite !Rmult_0_l, gamma_factor_none by exact HA.
    rewrite likelihood_nil. cbn [one_by_one] in E. injection E as <- <-. lra.
  - pose proof (scatter_pos mu (x :: data) F ltac:(discriminate)) as S2. pose proof (pos_INR (length (x :: data))) as S1.
    rewrite (H v Hv). apply Rmult_le_compat_r; [lra|]. unfold factor, gamma_factor. fold (scatter mu (x :: data)).
    apply Rmult_le_compat_l; [|apply kernel_le; [now apply Rinv_0_lt_compat|lra|lra]].
    pose proof (Gamma_fun_pos _ HA). pose proof (Gamma_fun_pos (variance_shape prior + INR (length (x :: data)) / 2) ltac:(lra)).
    left. apply Rmult_lt_0_compat; apply Rdiv_lt_0_compat; try assumption; apply exp_pos.
Qed.

Lemma variance_regret_exact : regret_exact lik update predict (fun v => 0 < v) (fun x => x <> mu) prior factor (fun data => data <> []).
Proof.
  intros data F N. destruct (variance_closed data) as (e & c & E & Hc & H). pose proof (scatter_pos mu data F N) as S2.
  assert (S1 : 0 < INR (length data)). { apply lt_0_INR. destruct data; [congruence|simpl; lia]. }
  exists (scatter mu data / INR (length data)). assert (Ht : 0 < scatter mu data / INR (length data)) by now apply Rdiv_lt_0_compat.
  split; [exact Ht|]. exists e, c. split; [exact E|]. split; [exact Hc|].
  rewrite (H _ Ht). unfold factor, gamma_factor. fold (scatter mu data).
  replace (/ (scatter mu data / INR (length data))) with (INR (length data) / 2 / (scatter mu data / 2)) by (field; lra).
  do 4 f_equal. field. lra.
Qed.
End Variance.
