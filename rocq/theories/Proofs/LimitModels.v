(** Concentration and predictive limits, model by model. *)

From Coq Require Import Reals Lra Lia Psatz ZArith.
From Coquelicot Require Import Coquelicot.
From Verif Require Import Model.Num Model.Py Model.NdArray Model.Dists Model.ScipyDist Model.Models.
From Verif Require Import Spec.Special Spec.Densities Spec.Bayes Spec.Joint Spec.Moments Spec.Normalised Spec.Limits.
From Verif Require Import Analysis.Improper Analysis.RealAux Analysis.GammaBeta Analysis.GammaFacts Analysis.Concentration.
From Verif Require Import Proofs.Pdfs Proofs.Conj Proofs.Predictive Proofs.Joint Proofs.Convert Proofs.Normalised Proofs.Limits.
From Coq Require Import List.
Import ListNotations.
Open Scope R_scope.

Lemma along_continuous (dom : R -> Prop) (h : R -> R) (t0 : R) : continuous h t0 -> continuous_along dom h t0.
Proof.
  intros H eps He. destruct (H _ (locally_ball (h t0) (mkposreal _ He))) as (d & Hd). exists d. split; [apply cond_pos|].
  intros t _ Ht. exact (Hd t Ht).
Qed.

Lemma along_ext (dom : R -> Prop) (h g : R -> R) (t0 : R) : (forall t, dom t -> g t = h t) -> g t0 = h t0 -> continuous_along dom g t0 -> continuous_along dom h t0.
Proof.
  intros E E0 H eps He. destruct (H eps He) as (d & Hd & K). exists d. split; [exact Hd|].
  intros t Ht Hd'. rewrite <- (E t Ht), <- E0. now apply K.
Qed.

(** ** posteriors *)
Section Streams.
Context (n x : nat -> R) (n_pos : forall N, 0 <= n N) (n_inf : is_lim_seq n p_infty) (x_pos : forall N, 0 <= x N).

Lemma binomial_beta_concentrates (prior : Beta R) (p : R) : 0 < Beta_alpha prior -> 0 < Beta_beta prior ->
  (forall N, x N <= n N) -> is_lim_seq (fun N => x N / n N) p ->
  concentrates Fpos0 Fone unit_interval (fun N => pdf (Beta_dist (binomial_beta (n N) (x N) prior))) p.
Proof.
  destruct prior as [a b]. cbn [Beta_alpha Beta_beta]. intros Ha Hb Hx Hp.
  apply (beta_concentrates (fun N => a + x N) (fun N => b + (n N - x N))).
  - intros N. specialize (x_pos N). lra.
  - intros N. specialize (Hx N). lra.
  - apply is_lim_seq_ext with (fun N => (a + b) + n N); [intros N; ring|]. now apply lim_add_inf.
  - apply is_lim_seq_ext with (fun N => (a + x N) / ((a + b) + n N)); [intros N; f_equal; ring|].
    replace p with (p / 1) by field. apply ratio_lim with n; auto using self_ratio1; try lra.
    intros N. specialize (n_pos N). lra.
Qed.

Lemma negative_binomial_beta_concentrates (prior : Beta R) (r p : R) : 0 < Beta_alpha prior -> 0 < Beta_beta prior -> 0 < r -> 0 < p <= 1 ->
  is_lim_seq (fun N => x N / n N) (r * (1 - p) / p) ->
  concentrates Fpos0 Fone unit_interval (fun N => pdf (Beta_dist (negative_binomial_beta r (n N) (x N) prior))) p.
Proof.
  destruct prior as [a b]. cbn [Beta_alpha Beta_beta]. intros Ha Hb Hr Hp0 Hp.
  apply (beta_concentrates (fun N => a + r * n N) (fun N => b + x N)).
  - intros N. specialize (n_pos N). nra.
  - intros N. specialize (x_pos N). lra.
  - apply lim_ge_inf with (fun N => (a + b) + n N * r); [apply lim_add_inf; now apply lim_mult_inf|].
    intros N. specialize (x_pos N). lra.
  - apply is_lim_seq_ext with (fun N => (a + n N * r) / ((a + b) + (n N * r + x N))); [intros N; f_equal; ring|].
    replace p with (r / (r + r * (1 - p) / p)) by (field; split; [|lra]; replace (r * p + r * (1 - p)) with r by ring; lra).
    apply ratio_lim with n; auto using self_ratio.
    + apply is_lim_seq_ext with (fun N => n N * r / n N + x N / n N); [intros N; unfold Rdiv; ring|].
      apply is_lim_seq_plus'; [now apply self_ratio|exact Hp].
    + replace (r + r * (1 - p) / p) with (r / p) by (field; lra). apply Rgt_not_eq. apply Rdiv_lt_0_compat; lra.
    + intros N. specialize (n_pos N). specialize (x_pos N). nra.
Qed.

Lemma geometric_beta_concentrates (prior : Beta R) (one_start : bool) (p : R) : 0 < Beta_alpha prior -> 0 < Beta_beta prior -> 0 < p <= 1 ->
  (forall N, (if one_start then n N else 0) <= x N) ->
  is_lim_seq (fun N => x N / n N) (if one_start then / p else / p - 1) ->
  concentrates Fpos0 Fone unit_interval (fun N => pdf (Beta_dist (geometric_beta (x N) (n N) prior one_start))) p.
Proof.
  destruct prior as [a b]. cbn [Beta_alpha Beta_beta]. intros Ha Hb Hp0 Hx Hp.
  apply (beta_concentrates (fun N => a + n N) (fun N => if one_start then b + x N - n N else b + x N)).
  - intros N. specialize (n_pos N). lra.
  - intros N. specialize (Hx N). destruct one_start; lra.
  - apply lim_ge_inf with (fun N => (a + b) + n N); [now apply lim_add_inf|]. intros N. specialize (Hx N). destruct one_start; lra.
  - replace p with (1 / / p) by (field; lra). pose proof (Rinv_0_lt_compat p ltac:(lra)). destruct one_start.
    + apply is_lim_seq_ext with (fun N => (a + n N) / ((a + b) + x N)); [intros N; f_equal; ring|].
      apply ratio_lim with n; auto using self_ratio1; try lra. intros N. specialize (x_pos N). lra.
    + apply is_lim_seq_ext with (fun N => (a + n N) / ((a + b) + (n N + x N))); [intros N; f_equal; ring|].
      apply ratio_lim with n; auto using self_ratio1; try lra.
      * replace (/ p) with (1 + (/ p - 1)) by ring. apply is_lim_seq_ext with (fun N => n N / n N + x N / n N); [intros N; unfold Rdiv; ring|].
        apply is_lim_seq_plus'; [now apply self_ratio1|exact Hp].
      * intros N. specialize (x_pos N). specialize (n_pos N). lra.
Qed.

Lemma poisson_gamma_concentrates (prior : Gamma R) (l : R) : 0 < Gamma_alpha prior -> 0 < Gamma_beta prior ->
  is_lim_seq (fun N => x N / n N) l ->
  concentrates Fpos0 Finf positive (fun N => pdf (Gamma_dist (poisson_gamma (x N) (n N) prior))) l.
Proof.
  destruct prior as [a b]. cbn [Gamma_alpha Gamma_beta]. intros Ha Hb Hl.
  apply (gamma_concentrates (fun N => a + x N) (fun N => b + n N)).
  - intros N. specialize (x_pos N). lra.
  - intros N. specialize (n_pos N). lra.
  - replace l with (l / 1) by field. apply ratio_lim with n; auto using self_ratio1; try lra. intros N. specialize (n_pos N). lra.
  - right. apply lim_inv_inf. now apply lim_add_inf.
Qed.

Lemma shape_concentrates (a b al r : R) : 0 < a -> 0 < b -> 0 < al -> 0 < r ->
  is_lim_seq (fun N => x N / n N) (al / r) ->
  concentrates Fpos0 Finf positive (fun N => pdf (S_gamma_scale (a + n N * al) (1 / (b + x N)))) r.
Proof.
  intros Ha Hb Hal Hr Hl. apply (gamma_concentrates (fun N => a + n N * al) (fun N => b + x N)).
  - intros N. specialize (n_pos N). nra.
  - intros N. specialize (x_pos N). lra.
  - replace r with (al / (al / r)) by (field; lra). apply ratio_lim with n; auto using self_ratio.
    + apply Rgt_not_eq. apply Rdiv_lt_0_compat; lra.
    + intros N. specialize (x_pos N). lra.
  - left. apply lim_inv_inf. apply lim_add_inf. now apply lim_mult_inf.
Qed.

Lemma gamma_known_shape_concentrates (prior : Gamma R) (al r : R) : 0 < Gamma_alpha prior -> 0 < Gamma_beta prior -> 0 < al -> 0 < r ->
  is_lim_seq (fun N => x N / n N) (al / r) ->
  concentrates Fpos0 Finf positive (fun N => pdf (Gamma_dist (gamma_known_shape (x N) (n N) al prior))) r.
Proof. intros. now apply (shape_concentrates (Gamma_alpha prior) (Gamma_beta prior)). Qed.

Lemma inverse_gamma_known_rate_concentrates (prior : Gamma R) (al r : R) : 0 < Gamma_alpha prior -> 0 < Gamma_beta prior -> 0 < al -> 0 < r ->
  is_lim_seq (fun N => x N / n N) (al / r) ->
  concentrates Fpos0 Finf positive (fun N => pdf (Gamma_dist (inverse_gamma_known_rate (x N) (n N) al prior))) r.
Proof. intros. now apply (shape_concentrates (Gamma_alpha prior) (Gamma_beta prior)). Qed.

Lemma exponential_gamma_concentrates (prior : Gamma R) (l : R) : 0 < Gamma_alpha prior -> 0 < Gamma_beta prior ->
  is_lim_seq (fun N => x N / n N) l ->
  concentrates Fpos0 Finf positive (fun N => pdf (Gamma_dist (exponential_gamma (x N) (n N) prior))) l.
Proof. exact (poisson_gamma_concentrates prior l). Qed.

Lemma weibull_concentrates (prior : InverseGamma R) (theta : R) : 0 < InverseGamma_alpha prior -> 0 < InverseGamma_beta prior -> 0 < theta ->
  is_lim_seq (fun N => x N / n N) theta ->
  concentrates Fpos0 Finf positive (fun N => pdf (InverseGamma_dist (weibull_inverse_gamma_known_shape (n N) (x N) prior))) theta.
Proof.
  destruct prior as [a b]. cbn [InverseGamma_alpha InverseGamma_beta]. intros Ha Hb Ht Hl.
  apply (invgamma_concentrates (fun N => a + n N) (fun N => b + x N)); [exact Ht| | | |].
  - intros N. specialize (n_pos N). lra.
  - intros N. specialize (x_pos N). lra.
  - apply lim_inv_inf. now apply lim_add_inf.
  - replace theta with (theta / 1) by field. apply ratio_lim with n; auto using self_ratio1; try lra. intros N. specialize (n_pos N). lra.
Qed.
End Streams.

Lemma pareto_gamma_concentrates (n lx : nat -> R) (prior : Gamma R) (x_m r : R) :
  (forall N, 0 <= n N) -> is_lim_seq n p_infty -> (forall N, n N * ln x_m <= lx N) ->
  0 < Gamma_alpha prior -> 0 < Gamma_beta prior -> 0 < r ->
  is_lim_seq (fun N => (lx N - n N * ln x_m) / n N) (/ r) ->
  concentrates Fpos0 Finf positive (fun N => pdf (Gamma_dist (pareto_gamma ln (n N) (lx N) x_m prior))) r.
Proof.
  destruct prior as [a b]. cbn [Gamma_alpha Gamma_beta]. intros Hn Hi Hx Ha Hb Hr Hl.
  apply (gamma_concentrates (fun N => a + n N) (fun N => b + lx N - n N * ln x_m)).
  - intros N. specialize (Hn N). lra.
  - intros N. specialize (Hx N). lra.
  - apply is_lim_seq_ext with (fun N => (a + n N) / (b + (lx N - n N * ln x_m))); [intros N; f_equal; ring|].
    replace r with (1 / / r) by (field; lra). apply ratio_lim with n; auto using self_ratio1.
    + apply Rgt_not_eq. now apply Rinv_0_lt_compat.
    + intros N. specialize (Hx N). lra.
  - left. apply lim_inv_inf. now apply lim_add_inf.
Qed.

Lemma uniform_pareto_concentrates (n xmax : nat -> R) (prior : Pareto R) (theta : R) :
  (forall N, 0 <= n N) -> is_lim_seq n p_infty -> 0 < Pareto_x_m prior -> 0 < Pareto_alpha prior -> Pareto_x_m prior <= theta ->
  is_lim_seq xmax theta ->
  concentrates Fpos0 Finf positive (fun N => pdf (Pareto_dist (uniform_pareto Rmax (xmax N) (n N) prior))) theta.
Proof.
  destruct prior as [m a]. cbn [Pareto_x_m Pareto_alpha]. intros Hn Hi Hm Ha Hth Hl.
  apply (pareto_concentrates (fun N => a + n N) (fun N => Rmax m (xmax N))); [lra| | | |].
  - intros N. specialize (Hn N). lra.
  - intros N. eapply Rlt_le_trans; [exact Hm|apply Rmax_l].
  - apply lim_inv_inf. now apply lim_add_inf.
  - apply is_lim_seq_spec. apply is_lim_seq_spec in Hl. intros eps. destruct (Hl eps) as (N0 & HN0). exists N0. intros N HN. specialize (HN0 N HN).
    apply Rabs_def2 in HN0. unfold Rmax. destruct (Rle_dec m (xmax N)); apply Rabs_def1; lra.
Qed.

Lemma normal_known_variance_concentrates (n x : nat -> R) (prior : Normal R) (var mu : R) :
  (forall N, 0 <= n N) -> is_lim_seq n p_infty -> 0 < Normal_sigma prior -> 0 < var ->
  is_lim_seq (fun N => x N / n N) mu ->
  concentrates Fminf Finf any_real (fun N => pdf (Normal_dist (normal_known_variance (x N) (n N) var prior))) mu.
Proof.
  destruct prior as [m s]. cbn [Normal_sigma]. intros Hn Hi Hs Hv Hl. assert (Hs2 : 0 < s ^ 2) by now apply pow_lt.
  assert (HP : forall N, 0 < 1 / s ^ 2 + n N / var).
  { intros N. specialize (Hn N). assert (0 < 1 / s ^ 2) by (apply Rdiv_lt_0_compat; lra).
    assert (0 <= n N / var) by (apply Rmult_le_pos; [exact Hn|left; now apply Rinv_0_lt_compat]). lra. }
  assert (Hnv : is_lim_seq (fun N => n N / var) p_infty) by (apply lim_mult_inf; [now apply Rinv_0_lt_compat|exact Hi]).
  apply (norm_concentrates (fun N => (m / s ^ 2 + x N / var) / (1 / s ^ 2 + n N / var)) (fun N => sqrt (1 / (1 / s ^ 2 + n N / var)))).
  - intros N. apply sqrt_lt_R0. apply Rdiv_lt_0_compat; [lra|apply HP].
  - replace mu with (mu / var / (/ var)) by (field; lra). apply ratio_lim with n; auto.
    + apply is_lim_seq_ext with (fun N => x N / n N / var); [intros N; unfold Rdiv; ring|].
      apply is_lim_seq_mult'; [exact Hl|apply is_lim_seq_const].
    + exact (self_ratio n (/ var) Hi).
    + apply Rgt_not_eq. now apply Rinv_0_lt_compat.
  - apply is_lim_seq_ext with (fun N => / (1 / s ^ 2 + n N / var)).
    + intros N. specialize (HP N). rewrite pow2_sqrt; [unfold Rdiv at 3; now rewrite Rmult_1_l|]. left. apply Rdiv_lt_0_compat; lra.
    + apply lim_inv_inf. now apply lim_add_inf.
Qed.

Lemma normal_known_precision_concentrates (n x : nat -> R) (prior : Normal R) (precision mu : R) :
  (forall N, 0 <= n N) -> is_lim_seq n p_infty -> 0 < Normal_sigma prior -> 0 < precision ->
  is_lim_seq (fun N => x N / n N) mu ->
  concentrates Fminf Finf any_real (fun N => pdf (Normal_dist (normal_known_precision (x N) (n N) precision prior))) mu.
Proof. intros Hn Hi Hs Hp Hl. apply (normal_known_variance_concentrates n x prior (1 / precision) mu); auto. apply Rdiv_lt_0_compat; lra. Qed.

(** The variance posterior is an inverse gamma, for both prior families. *)
Lemma known_mean_form (prior : VariancePrior R) (mu : R) : variance_ok prior -> exists a b, 0 < a /\ 0 < b /\
  forall x x2 n, 0 <= n -> 0 <= x2 - 2 * mu * x + n * mu ^ 2 ->
  variance_ok (normal_known_mean x x2 n mu prior) /\
  forall v, pdf (variance_dist (normal_known_mean x x2 n mu prior)) v = pdf (S_invgamma_scale (a + n / 2) (b + / 2 * (x2 - 2 * mu * x + n * mu ^ 2))) v.
Proof.
  destruct prior as [[a b]|[nu t2]]; cbn [variance_ok InverseGamma_alpha InverseGamma_beta ScaledInverseChiSquared_nu ScaledInverseChiSquared_sigma2]; intros (H1 & H2).
  - exists a, b. split; [exact H1|]. split; [exact H2|]. intros x x2 n Hn Hq. split.
    + simpl. split; [lra|]. simpl in Hq. nra.
    + intros v. unfold normal_known_mean, normal_known_mean_inverse_gamma_prior, variance_dist, InverseGamma_dist. cbn [InverseGamma_alpha InverseGamma_beta].
      reflexivity.
  - exists (nu / 2), (nu * t2 / 2). assert (Hb : 0 < nu * t2 / 2) by (pose proof (Rmult_lt_0_compat _ _ H1 H2); lra). split; [lra|]. split; [exact Hb|].
    intros x x2 n Hn Hq. set (q := x2 - 2 * mu * x + n * mu ^ 2) in *.
    assert (E : normal_known_mean x x2 n mu (VSICS (mkScaledInverseChiSquared nu t2)) =
      VSICS (ScaledInverseChiSquared_from_inverse_gamma (mkInverseGamma (nu / 2 + n / 2) (nu * t2 / 2 + / 2 * q)))) by reflexivity.
    rewrite E. split.
    + cbn. split; [lra|]. apply Rdiv_lt_0_compat; lra.
    + intros v. cbn [variance_dist]. rewrite sics_density_from; [reflexivity|]. cbn. lra.
Qed.

Lemma normal_known_mean_spread (n x x2 : nat -> R) (prior : VariancePrior R) (mu v : R) :
  (forall N, 0 <= n N) -> is_lim_seq n p_infty -> variance_ok prior -> 0 < v ->
  (forall N, 0 <= x2 N - 2 * mu * x N + n N * mu ^ 2) ->
  is_lim_seq (fun N => (x2 N - 2 * mu * x N + n N * mu ^ 2) / n N) v ->
  exists a b : nat -> R, (forall N, 0 < a N) /\ (forall N, 0 < b N) /\ is_lim_seq (fun N => / a N) 0 /\ is_lim_seq (fun N => b N / a N) v /\
  forall N, variance_ok (normal_known_mean (x N) (x2 N) (n N) mu prior) /\
   forall t, pdf (variance_dist (normal_known_mean (x N) (x2 N) (n N) mu prior)) t = pdf (S_invgamma_scale (a N) (b N)) t.
Proof.
  intros Hn Hi Hok Hv Hq Hl. destruct (known_mean_form prior mu Hok) as (a & b & Ha & Hb & F).
  exists (fun N => a + n N / 2), (fun N => b + / 2 * (x2 N - 2 * mu * x N + n N * mu ^ 2)).
  split; [intros N; specialize (Hn N); lra|]. split; [intros N; specialize (Hq N); lra|]. split; [|split].
  - apply lim_inv_inf, lim_add_inf, (lim_mult_inf n (/ 2)); [lra|exact Hi].
  - replace v with (/ 2 * v / / 2) by field. apply ratio_lim with n; auto.
    + apply is_lim_seq_ext with (fun N => / 2 * ((x2 N - 2 * mu * x N + n N * mu ^ 2) / n N)); [intros N; unfold Rdiv; ring|].
      apply is_lim_seq_mult'; [apply is_lim_seq_const|exact Hl].
    + exact (self_ratio n (/ 2) Hi).
    + lra.
    + intros N. specialize (Hn N). lra.
  - intros N. now apply F.
Qed.

Lemma concentrates_ext Fa Fb I (E : Ends I Fa Fb) dom (f g : nat -> R -> R) (t0 : R) : (forall N t, f N t = g N t) ->
  concentrates Fa Fb dom g t0 -> concentrates Fa Fb dom f t0.
Proof.
  intros Q H h M L HM Hc HL. apply (H h M L HM Hc). intros N. generalize (HL N). apply (is_RInt_gen_ext_on _ _ _ E). intros t _. now rewrite Q.
Qed.

Lemma normal_known_mean_concentrates (n x x2 : nat -> R) (prior : VariancePrior R) (mu v : R) :
  (forall N, 0 <= n N) -> is_lim_seq n p_infty -> variance_ok prior -> 0 < v ->
  (forall N, 0 <= x2 N - 2 * mu * x N + n N * mu ^ 2) ->
  is_lim_seq (fun N => (x2 N - 2 * mu * x N + n N * mu ^ 2) / n N) v ->
  concentrates Fpos0 Finf positive (fun N => pdf (variance_dist (normal_known_mean (x N) (x2 N) (n N) mu prior))) v.
Proof.
  intros Hn Hi Hok Hv Hq Hl. destruct (normal_known_mean_spread n x x2 prior mu v Hn Hi Hok Hv Hq Hl) as (a & b & Ha & Hb & L1 & L2 & F).
  apply (concentrates_ext _ _ _ ends_pos _ _ (fun N => pdf (S_invgamma_scale (a N) (b N)))); [intros N t; apply F|].
  now apply invgamma_concentrates.
Qed.
