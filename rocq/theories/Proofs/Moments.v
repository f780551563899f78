(** Means and variances of the scipy densities: used by C31, C38. *)

From Coq Require Import Reals Lra Psatz.
From Coquelicot Require Import Coquelicot.
From Verif Require Import Model.Num Model.Py Model.Dists Model.ScipyDist Model.Models Spec.Special Spec.Densities Spec.Bayes Spec.Moments.
From Verif Require Import Analysis.Improper Analysis.RealAux Analysis.GammaBeta Analysis.GammaFacts Analysis.Gauss Analysis.Moments Proofs.Pdfs Proofs.Conj Proofs.Predictive Proofs.Joint.
Open Scope R_scope.

Lemma beta_mean a b : 0 < a -> 0 < b -> is_mean Fpos0 Fone (pdf (S_beta a b)) (a / (a + b)).
Proof.
  intros Ha Hb. unfold is_mean. pose proof (Beta_fun_pos a b Ha Hb).
  assert (Ha1 : 0 < a + 1) by lra.
  pose proof (is_RInt_gen_mult_l _ _ _ (/ Beta_fun a b) _ (is_RInt_gen_Beta (a + 1) b Ha1 Hb)) as HH.
  rewrite Beta_fun_succ_l in HH by auto.
  replace (/ Beta_fun a b * (Beta_fun a b * (a / (a + b)))) with (a / (a + b)) in HH by (field; lra).
  revert HH. apply (is_RInt_gen_ext_on _ _ _ E01). intros t Ht. rewrite beta_pdf by auto.
  replace (a + 1 - 1) with ((a - 1) + 1) by ring. rewrite (Rpower_succ t (a - 1)) by lra. ring.
Qed.

Lemma gamma_mean a b : 0 < a -> 0 < b -> is_mean Fpos0 Finf (pdf (S_gamma_scale a (1 / b))) (a / b).
Proof.
  intros Ha Hb. unfold is_mean. pose proof (Gamma_fun_pos a Ha). pose proof (Rpower_pos b a).
  assert (Ha1 : 0 < a + 1) by lra.
  pose proof (is_RInt_gen_mult_l _ _ _ (Rpower b a / Gamma_fun a) _ (is_RInt_gen_Gamma_scaled (a + 1) b Ha1 Hb)) as HH.
  rewrite Gamma_fun_succ, Rpower_succ in HH by auto.
  replace (Rpower b a / Gamma_fun a * (a * Gamma_fun a / (Rpower b a * b))) with (a / b) in HH by (field; lra).
  revert HH. apply (is_RInt_gen_ext_on _ _ _ ends_pos). intros t Ht. rewrite gamma_pdf by auto.
  replace (a + 1 - 1) with ((a - 1) + 1) by ring. rewrite (Rpower_succ t (a - 1)) by lra. ring.
Qed.

Lemma norm_pdf_std m s x : 0 < s -> pdf (S_norm m s) x = / (s * sqrt (2 * PI)) * exp (- (/ s * (x - m)) ^ 2 / 2).
Proof. intros Hs. rewrite norm_pdf by auto. do 2 f_equal. field. lra. Qed.

Lemma norm_mean m s : 0 < s -> is_mean Fminf Finf (pdf (S_norm m s)) m.
Proof.
  intros Hs. pose proof sqrt_2pi_pos as Hp. unfold is_mean.
  assert (Hi : 0 < / s) by now apply Rinv_0_lt_compat.
  pose proof (norm_normalised m s Hs) as H0. apply (is_RInt_gen_mult_l _ _ _ m) in H0.
  pose proof (is_RInt_gen_affine (fun x => x * exp (- x ^ 2 / 2)) (/ s) m 0 Hi) as H1.
  assert (H2 : is_RInt_gen (fun x => (fun x => x * exp (- x ^ 2 / 2)) (/ s * (x - m))) Fminf Finf (0 / / s)).
  { apply H1. intros x. apply (ex_derive_continuous (V := R_NormedModule)). auto_derive; auto. apply is_RInt_gen_gauss_1. }
  apply (is_RInt_gen_mult_l _ _ _ (/ sqrt (2 * PI))) in H2.
  pose proof (is_RInt_gen_plus_R _ _ _ _ _ _ H0 H2) as H3.
  replace (m * 1 + / sqrt (2 * PI) * (0 / / s)) with m in H3 by (field; lra).
  revert H3. apply (is_RInt_gen_ext_on _ _ _ ends_line). intros x _. rewrite norm_pdf_std by auto. field. lra.
Qed.

Lemma norm_variance m s : 0 < s -> is_variance Fminf Finf (pdf (S_norm m s)) (s ^ 2).
Proof.
  intros Hs. exists m. split. now apply norm_mean. pose proof sqrt_2pi_pos as Hp.
  assert (Hi : 0 < / s) by now apply Rinv_0_lt_compat.
  pose proof (is_RInt_gen_affine (fun x => x ^ 2 * exp (- x ^ 2 / 2)) (/ s) m (sqrt (2 * PI)) Hi) as H1.
  assert (H2 : is_RInt_gen (fun x => (fun x => x ^ 2 * exp (- x ^ 2 / 2)) (/ s * (x - m))) Fminf Finf (sqrt (2 * PI) / / s)).
  { apply H1. intros x. apply (ex_derive_continuous (V := R_NormedModule)). auto_derive; auto. apply is_RInt_gen_gauss_2. }
  apply (is_RInt_gen_mult_l _ _ _ (s / sqrt (2 * PI))) in H2.
  replace (s / sqrt (2 * PI) * (sqrt (2 * PI) / / s)) with (s ^ 2) in H2 by (field; lra).
  revert H2. apply (is_RInt_gen_ext_on _ _ _ ends_line). intros x _. rewrite norm_pdf_std by auto. field. lra.
Qed.

Lemma is_mean_unique (I : R -> Prop) Fa Fb (E : Ends I Fa Fb) f m m' : is_mean Fa Fb f m -> is_mean Fa Fb f m' -> m = m'.
Proof. apply (is_RInt_gen_unique_on _ _ _ E). Qed.

Lemma is_variance_unique (I : R -> Prop) Fa Fb (E : Ends I Fa Fb) f v v' : is_variance Fa Fb f v -> is_variance Fa Fb f v' -> v = v'.
Proof.
  intros (m & Hm & Hv) (m' & Hm' & Hv'). assert (m = m') by exact (is_mean_unique _ _ _ E _ _ _ Hm Hm'). subst m'.
  exact (is_RInt_gen_unique_on _ _ _ E _ _ _ Hv Hv').
Qed.

(** C38 *)
Lemma Beta_from_mean_mean mean alpha : 0 < mean < 1 -> 0 < alpha ->
  is_mean Fpos0 Fone (pdf (Beta_dist (Beta_from_mean mean alpha))) mean.
Proof.
  intros Hm Ha. cbv [Beta_dist Beta_from_mean get_beta_param_from_mean_and_alpha Beta_alpha Beta_beta nmul nsub ndiv nlit NumR].
  assert (H : 0 < 1 / mean - 1). { replace (1 / mean - 1) with ((1 - mean) / mean) by (field; lra). apply Rdiv_lt_0_compat; lra. }
  assert (Hb : 0 < alpha * (1 / mean - 1)) by now apply Rmult_lt_0_compat.
  pose proof (beta_mean alpha _ Ha Hb) as HH.
  replace (alpha / (alpha + alpha * (1 / mean - 1))) with mean in HH by (field; lra). exact HH.
Qed.

Lemma Normal_from_mean_and_variance_moments mean variance : 0 < variance ->
  is_mean Fminf Finf (pdf (Normal_dist (Normal_from_mean_and_variance mean variance))) mean /\
  is_variance Fminf Finf (pdf (Normal_dist (Normal_from_mean_and_variance mean variance))) variance.
Proof.
  intros Hv. cbv [Normal_dist Normal_from_mean_and_variance Normal_mu Normal_sigma nsqrt NumR].
  assert (Hs : 0 < sqrt variance) by now apply sqrt_lt_R0. split.
  - now apply norm_mean.
  - pose proof (norm_variance mean _ Hs) as H. rewrite pow2_sqrt in H by lra. exact H.
Qed.

Lemma Normal_from_mean_and_precision_moments mean precision : 0 < precision ->
  is_mean Fminf Finf (pdf (Normal_dist (Normal_from_mean_and_precision mean precision))) mean /\
  is_variance Fminf Finf (pdf (Normal_dist (Normal_from_mean_and_precision mean precision))) (/ precision).
Proof.
  intros Hv. cbv [Normal_dist Normal_from_mean_and_precision Normal_mu Normal_sigma nrsqrt NumR].
  assert (Hs : 0 < sqrt precision) by now apply sqrt_lt_R0. assert (Hi : 0 < / sqrt precision) by now apply Rinv_0_lt_compat. split.
  - now apply norm_mean.
  - pose proof (norm_variance mean _ Hi) as H. rewrite pow_inv, pow2_sqrt in H by lra. exact H.
Qed.

Lemma Beta_from_successes_and_failures_update s f :
  Beta_from_successes_and_failures s f = binomial_beta (s + f) s Beta_uninformative.
Proof. unfold Beta_from_successes_and_failures, binomial_beta, Beta_uninformative. simpl. f_equal; ring. Qed.

Lemma Gamma_from_occurrences_update s n :
  poisson_gamma s n (mkGamma 0 0) = Gamma_from_occurrences_in_intervals s n.
Proof. unfold poisson_gamma, Gamma_from_occurrences_in_intervals. simpl. f_equal; ring. Qed.

Lemma Gamma_from_occurrences_limit s n :
  filterlim (fun e => Gamma_alpha (poisson_gamma s n (mkGamma e e))) Fpos0 (locally (Gamma_alpha (Gamma_from_occurrences_in_intervals s n))) /\
  filterlim (fun e => Gamma_beta (poisson_gamma s n (mkGamma e e))) Fpos0 (locally (Gamma_beta (Gamma_from_occurrences_in_intervals s n))).
Proof.
  assert (H : forall c, filterlim (fun e => e + c) Fpos0 (locally c)).
  { intros c P [eps HP]. exists eps. intros x Hx _. apply HP.
    unfold ball in *; simpl in *; unfold AbsRing_ball, abs, minus, plus, opp in *; simpl in *.
    replace (x + c + - c) with (x + - 0) by ring. exact Hx. }
  split; simpl; apply H.
Qed.

(** C31 *)
Lemma convex_between x y w : 0 < w < 1 -> between x y (w * x + (1 - w) * y).
Proof. intros Hw. unfold between. destruct (Rtotal_order x y) as [H|[H|H]]; [left|right; right; subst; lra|right; left]; nra. Qed.

Lemma binomial_beta_compromise (prior : Beta R) n x m0 m1 :
  0 < Beta_alpha prior -> 0 < Beta_beta prior -> 0 < n -> 0 <= x <= n ->
  is_mean Fpos0 Fone (pdf (Beta_dist prior)) m0 ->
  is_mean Fpos0 Fone (pdf (Beta_dist (binomial_beta n x prior))) m1 ->
  between m0 (x / n) m1.
Proof.
  destruct prior as [a b]. simpl Beta_alpha. simpl Beta_beta. intros Ha Hb Hn Hx H0 H1.
  apply (is_mean_unique _ _ _ E01) with (m' := a / (a + b)) in H0. 2: now apply beta_mean.
  apply (is_mean_unique _ _ _ E01) with (m' := (a + x) / (a + x + (b + (n - x)))) in H1. 2: apply beta_mean; lra.
  subst. replace ((a + x) / (a + x + (b + (n - x)))) with ((a + b) / (a + b + n) * (a / (a + b)) + (1 - (a + b) / (a + b + n)) * (x / n)) by (field; lra).
  apply convex_between. split. apply Rdiv_lt_0_compat; lra. apply Rlt_div_l; lra.
Qed.

Lemma poisson_gamma_compromise (prior : Gamma R) x n m0 m1 :
  0 < Gamma_alpha prior -> 0 < Gamma_beta prior -> 0 < n -> 0 <= x ->
  is_mean Fpos0 Finf (pdf (Gamma_dist prior)) m0 ->
  is_mean Fpos0 Finf (pdf (Gamma_dist (poisson_gamma x n prior))) m1 ->
  between m0 (x / n) m1.
Proof.
  destruct prior as [a b]. simpl Gamma_alpha. simpl Gamma_beta. intros Ha Hb Hn Hx H0 H1.
  apply (is_mean_unique _ _ _ ends_pos) with (m' := a / b) in H0. 2: now apply gamma_mean.
  apply (is_mean_unique _ _ _ ends_pos) with (m' := (a + x) / (b + n)) in H1. 2: apply gamma_mean; lra.
  subst. replace ((a + x) / (b + n)) with (b / (b + n) * (a / b) + (1 - b / (b + n)) * (x / n)) by (field; lra).
  apply convex_between. split. apply Rdiv_lt_0_compat; lra. apply Rlt_div_l; lra.
Qed.

Lemma normal_known_variance_compromise (prior : Normal R) x n var m0 m1 v0 v1 :
  0 < Normal_sigma prior -> 0 < var -> 0 < n ->
  is_mean Fminf Finf (pdf (Normal_dist prior)) m0 ->
  is_mean Fminf Finf (pdf (Normal_dist (normal_known_variance x n var prior))) m1 ->
  is_variance Fminf Finf (pdf (Normal_dist prior)) v0 ->
  is_variance Fminf Finf (pdf (Normal_dist (normal_known_variance x n var prior))) v1 ->
  between m0 (x / n) m1 /\ v1 < v0 /\ v1 < var / n.
Proof.
  destruct prior as [m s]. simpl Normal_sigma. intros Hs Hv Hn H0 H1 V0 V1.
  assert (Hs2 : 0 < s ^ 2) by nra. assert (Hd : 0 < var + n * s ^ 2) by nra.
  assert (E : 1 / (1 / s ^ 2 + n / var) = s ^ 2 * var / (var + n * s ^ 2)).
  { field. repeat split; nra. }
  assert (Hp : 0 < 1 / (1 / s ^ 2 + n / var)). { rewrite E. apply Rdiv_lt_0_compat; nra. }
  assert (Hq : 0 < sqrt (1 / (1 / s ^ 2 + n / var))) by now apply sqrt_lt_R0.
  apply (is_mean_unique _ _ _ ends_line) with (m' := m) in H0. 2: now apply norm_mean.
  apply (is_mean_unique _ _ _ ends_line) with (m' := (m / s ^ 2 + x / var) / (1 / s ^ 2 + n / var)) in H1.
  2: { apply (norm_mean ((m / s ^ 2 + x / var) / (1 / s ^ 2 + n / var)) _ Hq). }
  apply (is_variance_unique _ _ _ ends_line) with (v' := s ^ 2) in V0. 2: now apply norm_variance.
  apply (is_variance_unique _ _ _ ends_line) with (v' := (sqrt (1 / (1 / s ^ 2 + n / var))) ^ 2) in V1.
  2: { apply (norm_variance ((m / s ^ 2 + x / var) / (1 / s ^ 2 + n / var)) _ Hq). }
  rewrite pow2_sqrt in V1 by lra. rewrite E in V1. subst. split; [|split].
  - replace ((m / s ^ 2 + x / var) / (1 / s ^ 2 + n / var)) with
     (var / (var + n * s ^ 2) * m + (1 - var / (var + n * s ^ 2)) * (x / n)).
    2: { field. repeat split; nra. }
    apply convex_between. split. apply Rdiv_lt_0_compat; lra. apply Rlt_div_l; nra.
  - apply Rlt_div_l; auto. assert (0 < n * s ^ 2) by nra. nra.
  - apply Rlt_div_l; auto. apply Rmult_lt_reg_r with n; auto.
    replace (var / n * (var + n * s ^ 2) * n) with (var * (var + n * s ^ 2)) by (field; lra). nra.
Qed.

(** Limits: the posterior mean tends to the limit of the data averages. *)
Lemma average_lim (a c : R) (X : nat -> R) (l : R) :
  is_lim_seq (fun N => X N / INR N) l -> is_lim_seq (fun N => (a + X N) / (c + INR N)) l.
Proof.
  intros H.
  assert (HN : is_lim_seq INR p_infty) by apply is_lim_seq_INR.
  assert (Hi : is_lim_seq (fun N => / INR N) 0).
  { replace (Finite 0) with (Rbar_inv p_infty) by reflexivity. apply is_lim_seq_inv; auto. discriminate. }
  assert (H1 : is_lim_seq (fun N => (a * / INR N + X N / INR N) / (c * / INR N + 1)) ((a * 0 + l) / (c * 0 + 1))).
  { apply is_lim_seq_div'. 
    - apply is_lim_seq_plus'; auto. apply (is_lim_seq_scal_l _ a 0 Hi).
    - apply is_lim_seq_plus'. apply (is_lim_seq_scal_l _ c 0 Hi). apply is_lim_seq_const.
    - lra. }
  replace ((a * 0 + l) / (c * 0 + 1)) with l in H1 by (field; lra).
  apply is_lim_seq_ext_loc with (2 := H1).
  exists (S (Z.to_nat (up (Rabs c)))). intros N HN'.
  assert (Rabs c < INR N).
  { destruct (archimed (Rabs c)) as [A _]. eapply Rlt_le_trans. exact A.
    rewrite INR_IZR_INZ. apply IZR_le. pose proof (Zle_0_nat N). Lia.lia. }
  assert (0 < INR N) by (pose proof (Rabs_pos c); lra).
  assert (c + INR N <> 0). { unfold Rabs in *. destruct (Rcase_abs c); lra. }
  field. repeat split; lra.
Qed.

Lemma binomial_beta_consistent (prior : Beta R) (X : nat -> R) (M : nat -> R) (l : R) :
  0 < Beta_alpha prior -> 0 < Beta_beta prior -> (forall N, 0 <= X N <= INR N) ->
  (forall N, is_mean Fpos0 Fone (pdf (Beta_dist (binomial_beta (INR N) (X N) prior))) (M N)) ->
  is_lim_seq (fun N => X N / INR N) l -> is_lim_seq M l.
Proof.
  destruct prior as [a b]. simpl Beta_alpha. simpl Beta_beta. intros Ha Hb HX HM H.
  apply is_lim_seq_ext with (fun N => (a + X N) / (a + b + INR N)).
  - intros N. specialize (HM N). specialize (HX N). apply (is_mean_unique _ _ _ E01) with (m := M N) (m' := (a + X N) / (a + X N + (b + (INR N - X N)))) in HM.
    2: apply beta_mean; lra. rewrite HM. f_equal. ring.
  - now apply average_lim.
Qed.

Lemma poisson_gamma_consistent (prior : Gamma R) (X : nat -> R) (M : nat -> R) (l : R) :
  0 < Gamma_alpha prior -> 0 < Gamma_beta prior -> (forall N, 0 <= X N) ->
  (forall N, is_mean Fpos0 Finf (pdf (Gamma_dist (poisson_gamma (X N) (INR N) prior))) (M N)) ->
  is_lim_seq (fun N => X N / INR N) l -> is_lim_seq M l.
Proof.
  destruct prior as [a b]. simpl Gamma_alpha. simpl Gamma_beta. intros Ha Hb HX HM H.
  apply is_lim_seq_ext with (fun N => (a + X N) / (b + INR N)).
  - intros N. specialize (HM N). specialize (HX N). pose proof (pos_INR N). apply (is_mean_unique _ _ _ ends_pos) with (m := M N) (m' := (a + X N) / (b + INR N)) in HM.
    2: apply gamma_mean; lra. now rewrite HM.
  - now apply average_lim.
Qed.

Lemma normal_known_variance_consistent (prior : Normal R) var (X : nat -> R) (M V : nat -> R) (l : R) :
  0 < Normal_sigma prior -> 0 < var ->
  (forall N, is_mean Fminf Finf (pdf (Normal_dist (normal_known_variance (X N) (INR N) var prior))) (M N)) ->
  (forall N, is_variance Fminf Finf (pdf (Normal_dist (normal_known_variance (X N) (INR N) var prior))) (V N)) ->
  is_lim_seq (fun N => X N / INR N) l -> is_lim_seq M l /\ is_lim_seq V 0.
Proof.
  destruct prior as [m s]. simpl Normal_sigma. intros Hs Hv HM HV H.
  assert (Hs2 : 0 < s ^ 2) by nra.
  assert (Hq : forall N, 0 < 1 / (1 / s ^ 2 + INR N / var)).
  { intros N. pose proof (pos_INR N). assert (0 < 1 / s ^ 2) by (apply Rdiv_lt_0_compat; lra).
    assert (0 <= INR N / var) by (apply Rmult_le_pos; auto; left; now apply Rinv_0_lt_compat). apply Rdiv_lt_0_compat; lra. }
  assert (Hd : forall N, 0 < var + INR N * s ^ 2) by (intros N; pose proof (pos_INR N); nra).
  split.
  - apply is_lim_seq_ext with (fun N => (m * var / s ^ 2 + X N) / (var / s ^ 2 + INR N)).
    + intros N. specialize (HM N). specialize (Hd N).
      apply (is_mean_unique _ _ _ ends_line) with (m := M N) (m' := (m / s ^ 2 + X N / var) / (1 / s ^ 2 + INR N / var)) in HM.
      2: apply (norm_mean ((m / s ^ 2 + X N / var) / (1 / s ^ 2 + INR N / var)) (sqrt (1 / (1 / s ^ 2 + INR N / var)))); now apply sqrt_lt_R0.
      rewrite HM. field. repeat split; try lra; nra.
    + now apply average_lim.
  - apply is_lim_seq_ext with (fun N => (var + 0) / (var / s ^ 2 + INR N)).
    + intros N. specialize (HV N). specialize (Hd N).
      apply (is_variance_unique _ _ _ ends_line) with (v := V N) (v' := (sqrt (1 / (1 / s ^ 2 + INR N / var))) ^ 2) in HV.
      2: apply (norm_variance ((m / s ^ 2 + X N / var) / (1 / s ^ 2 + INR N / var)) (sqrt (1 / (1 / s ^ 2 + INR N / var)))); now apply sqrt_lt_R0.
      rewrite pow2_sqrt in HV by (left; apply Hq).
      rewrite HV. field. repeat split; try lra; nra.
    + apply (average_lim var (var / s ^ 2) (fun _ => 0) 0). apply is_lim_seq_ext with (fun _ => 0).
      intros. unfold Rdiv. ring. apply is_lim_seq_const.
Qed.

Lemma normal_known_variance_shrinks (prior : Normal R) x n var : 0 < Normal_sigma prior -> 0 < var -> 0 < n ->
  0 < Normal_sigma (normal_known_variance x n var prior) < Normal_sigma prior.
Proof.
  destruct prior as [m s]. simpl Normal_sigma. intros Hs Hv Hn.
  assert (Hs2 : 0 < s ^ 2) by nra. assert (Hd : 0 < var + n * s ^ 2) by nra.
  assert (E : 1 / (1 / (s * (s * 1)) + n / var) = s ^ 2 * var / (var + n * s ^ 2)).
  { field. repeat split; nra. }
  rewrite E. split. apply sqrt_lt_R0. apply Rdiv_lt_0_compat; nra.
  apply Rsqr_incrst_0; try lra. 2: apply sqrt_pos.
  unfold Rsqr. rewrite sqrt_sqrt by (left; apply Rdiv_lt_0_compat; nra). apply Rlt_div_l; auto. assert (0 < n * s ^ 2) by nra. nra.
Qed.

Lemma Beta_uninformative_uniform x : 0 < x < 1 -> pdf (Beta_dist Beta_uninformative) x = 1.
Proof.
  intros Hx. unfold Beta_dist, Beta_uninformative. cbn [Beta_alpha Beta_beta nlit NumR]. rewrite beta_pdf by auto.
  replace (1 - 1) with 0 by lra. rewrite !Rpower_O by lra.
  replace (Beta_fun 1 1) with 1; [field|]. rewrite Beta_fun_Gamma by lra. pose proof (Gamma_fun_fact 0) as G0. pose proof (Gamma_fun_fact 1) as G1.
  replace (INR 0 + 1) with 1 in G0 by (simpl; lra). change (INR 1) with 1 in G1. rewrite G0, G1. simpl. field.
Qed.
Lemma Normal_uninformative_moments sigma : 0 < sigma ->
  is_mean Fminf Finf (pdf (Normal_dist (Normal_uninformative sigma))) 0 /\
  is_variance Fminf Finf (pdf (Normal_dist (Normal_uninformative sigma))) (sigma ^ 2).
Proof. intros H. split; [now apply norm_mean|now apply norm_variance]. Qed.
