(** Limits of predictive distributions as data accumulates. *)

From Coq Require Import Reals Lra Lia Psatz ZArith.
From Coquelicot Require Import Coquelicot.
From Verif Require Import Model.Num Model.Py Model.NdArray Model.Dists Model.ScipyDist Model.Models.
From Verif Require Import Spec.Special Spec.Densities Spec.Bayes Spec.Joint Spec.Moments Spec.Normalised Spec.Limits.
From Verif Require Import Analysis.Improper Analysis.RealAux Analysis.GammaBeta Analysis.GammaFacts Analysis.Concentration.
From Verif Require Import Proofs.Pdfs Proofs.Conj Proofs.Predictive Proofs.Joint Proofs.Convert Proofs.Normalised Proofs.Limits Proofs.LimitModels.
From Coq Require Import List.
Import ListNotations.
Open Scope R_scope.

Lemma pow_unit t k : 0 <= t <= 1 -> 0 <= t ^ k <= 1.
Proof. intros H. split; [apply pow_le; lra|]. rewrite <- (pow1 k). apply pow_incr. lra. Qed.

Lemma Rpower_unit t a : 0 < t <= 1 -> 0 <= a -> 0 <= Rpower t a <= 1.
Proof.
  intros H Ha. split; [left; apply Rpower_pos|]. rewrite <- exp_0. unfold Rpower. 
  destruct (Rle_lt_or_eq_dec (a * ln t) 0) as [K|K].
  - assert (ln t <= 0) by (rewrite <- ln_1; destruct (Rle_lt_or_eq_dec t 1 (proj2 H)) as [Q|Q]; [left; apply ln_increasing; lra|right; now rewrite Q]). nra.
  - left. now apply exp_increasing.
  - right. now rewrite K.
Qed.

(** t^a e^(-x t) is bounded. *)
Lemma power_exp_bounded a x : 0 < a -> 0 < x -> exists M, forall t, 0 < t -> 0 <= Rpower t a * exp (- (x * t)) <= M.
Proof.
  intros Ha Hx. exists (exp (- a - a * ln (x / a))). intros t Ht. unfold Rpower. rewrite <- exp_plus. split; [left; apply exp_pos|].
  assert (Hc : 0 < x / a) by now apply Rdiv_lt_0_compat.
  pose proof (ln_le_sub1 (x / a * t) (Rmult_lt_0_compat _ _ Hc Ht)) as L. rewrite ln_mult in L by assumption.
  assert (K : a * ln t + - (x * t) <= - a - a * ln (x / a)).
  { apply (Rmult_le_compat_l a) in L; [|lra]. replace (a * (x / a * t - 1)) with (x * t - a) in L by (field; lra). lra. }
  destruct K as [K|K]; [left; now apply exp_increasing|right; now rewrite K].
Qed.

Section Streams.
Context (n x : nat -> R) (n_pos : forall N, 0 <= n N) (n_inf : is_lim_seq n p_infty) (x_pos : forall N, 0 <= x N).

Lemma binomial_beta_predictive_limit (prior : Beta R) (p : R) (m k : nat) : 0 < Beta_alpha prior -> 0 < Beta_beta prior ->
  (forall N, x N <= n N) -> is_lim_seq (fun N => x N / n N) p -> (k <= m)%nat ->
  is_lim_seq (fun N => pmf (BetaBinomial_dist (binomial_beta_predictive (INR m) (binomial_beta (n N) (x N) prior))) (Z.of_nat k))
    (pmf (Binomial_dist (mkBinomial (INR m) p)) (Z.of_nat k)).
Proof.
  intros Ha Hb Hx Hp Hk.
  apply (binomial_beta_concentrates n x n_pos n_inf x_pos prior p Ha Hb Hx Hp
    (fun t => pmf (Binomial_dist (mkBinomial (INR m) t)) (Z.of_nat k)) (Rabs (choose (INR m) k))).
  - intros t Ht. unfold unit_interval in Ht. cbn [Binomial_dist Binomial_n Binomial_p]. unfold Binomial_dist. cbn [Binomial_n Binomial_p]. rewrite binom_pmf by exact Hk.
    rewrite Rmult_assoc, Rabs_mult. rewrite <- (Rmult_1_r (Rabs (choose _ _))) at 2. apply Rmult_le_compat_l; [apply Rabs_pos|].
    pose proof (pow_unit t k ltac:(lra)). pose proof (pow_unit (1 - t) (m - k) ltac:(lra)). rewrite Rabs_pos_eq by nra. nra.
  - apply along_continuous. apply (continuous_ext (fun t => choose (INR m) k * t ^ k * (1 - t) ^ (m - k))).
    + intros t. unfold Binomial_dist. cbn [Binomial_n Binomial_p]. now rewrite binom_pmf.
    + apply (ex_derive_continuous (V:=R_NormedModule)). auto_derive. auto.
  - intros N. apply (binomial_beta_predictive_marginal (binomial_beta (n N) (x N) prior) m k); [| |exact Hk].
    + cbn. specialize (x_pos N). lra.
    + cbn. specialize (Hx N). lra.
Qed.

Lemma negative_binomial_beta_predictive_limit (prior : Beta R) (r p : R) (rel : list nat) (dists : nat -> frozen R) (k : nat) :
  0 < Beta_alpha prior -> 0 < Beta_beta prior -> 0 < r -> 0 < p <= 1 ->
  is_lim_seq (fun N => x N / n N) (r * (1 - p) / p) ->
  (forall N, BetaNegativeBinomial_dist rel (negative_binomial_beta_predictive r (negative_binomial_beta r (n N) (x N) prior)) = Ok (dists N)) ->
  is_lim_seq (fun N => pmf (dists N) (Z.of_nat k)) (pmf (NegativeBinomial_dist (mkNegativeBinomial r p)) (Z.of_nat k)).
Proof.
  intros Ha Hb Hr Hp Hl Hd. 
  apply (negative_binomial_beta_concentrates n x n_pos n_inf x_pos prior r p Ha Hb Hr Hp Hl
    (fun t => pmf (NegativeBinomial_dist (mkNegativeBinomial r t)) (Z.of_nat k)) (Rabs (rising r k / INR (fact k)))).
  - intros t Ht. unfold unit_interval in Ht. unfold NegativeBinomial_dist. cbn [NegativeBinomial_n NegativeBinomial_p]. rewrite nbinom_pmf.
    rewrite Rmult_assoc, Rabs_mult. rewrite <- (Rmult_1_r (Rabs (rising _ _ / _))) at 2. apply Rmult_le_compat_l; [apply Rabs_pos|].
    pose proof (Rpower_unit t r ltac:(lra) ltac:(lra)). pose proof (pow_unit (1 - t) k ltac:(lra)). rewrite Rabs_pos_eq by nra. nra.
  - apply along_continuous. apply (continuous_ext (fun t => rising r k / INR (fact k) * Rpower t r * (1 - t) ^ k)).
    + intros t. unfold NegativeBinomial_dist. cbn [NegativeBinomial_n NegativeBinomial_p]. now rewrite nbinom_pmf.
    + apply (ex_derive_continuous (V:=R_NormedModule)). unfold Rpower. auto_derive. lra.
  - intros N. apply (negative_binomial_beta_predictive_marginal (negative_binomial_beta r (n N) (x N) prior) r k rel (dists N)); auto.
    + cbn. specialize (n_pos N). nra.
    + cbn. specialize (x_pos N). lra.
Qed.

Lemma geom_along dom one_start p z : continuous_along dom (fun t => pmf (Geometric_dist (mkGeometric t one_start)) z) p.
Proof.
  apply along_continuous. unfold Geometric_dist. cbn [Geometric_p Geometric_one_start]. unfold pmf.
  match goal with |- context [Int_part ?l] => set (loc := l) end.
  destruct (Z.leb 1 (z - Int_part loc)); [|apply continuous_const].
  apply (ex_derive_continuous (V:=R_NormedModule)). auto_derive. auto.
Qed.

Lemma geom_bounded one_start t z : 0 < t < 1 -> Rabs (pmf (Geometric_dist (mkGeometric t one_start)) z) <= 1.
Proof.
  intros Ht. unfold Geometric_dist. cbn [Geometric_p Geometric_one_start]. unfold pmf.
  match goal with |- context [Int_part ?l] => set (loc := l) end.
  destruct (Z.leb 1 (z - Int_part loc)); [|rewrite Rabs_R0; lra].
  pose proof (pow_unit (1 - t) (Z.to_nat (z - Int_part loc) - 1) ltac:(lra)). rewrite Rabs_pos_eq; nra.
Qed.

Lemma geometric_beta_predictive_limit (prior : Beta R) (one_start : bool) (p : R) (z : Z) : 0 < Beta_alpha prior -> 0 < Beta_beta prior -> 0 < p <= 1 ->
  (forall N, (if one_start then n N else 0) <= x N) ->
  is_lim_seq (fun N => x N / n N) (if one_start then / p else / p - 1) -> ((if one_start then 0 else -1) <= z)%Z ->
  is_lim_seq (fun N => pmf (BetaGeometric_dist (geometric_beta_predictive (geometric_beta (x N) (n N) prior one_start) one_start)) z)
    (pmf (Geometric_dist (mkGeometric p one_start)) (z + 1)).
Proof.
  intros Ha Hb Hp Hx Hl Hz.
  apply (geometric_beta_concentrates n x n_pos n_inf x_pos prior one_start p Ha Hb Hp Hx Hl
    (fun t => pmf (Geometric_dist (mkGeometric t one_start)) (z + 1)) 1).
  - intros t Ht. now apply geom_bounded.
  - apply geom_along.
  - intros N. apply (geometric_beta_predictive_shifted (geometric_beta (x N) (n N) prior one_start) one_start z); [| |exact Hz].
    + cbn. specialize (n_pos N). lra.
    + cbn. specialize (Hx N). destruct one_start; lra.
Qed.

Lemma poisson_bounded t k : 0 <= t -> 0 <= exp (- t) * t ^ k / INR (fact k) <= 1.
Proof.
  intros Ht. assert (F : 0 < INR (fact k)) by apply INR_fact_lt_0. split.
  - apply Rmult_le_pos; [|left; now apply Rinv_0_lt_compat]. apply Rmult_le_pos; [left; apply exp_pos|now apply pow_le].
  - assert (G : t ^ k / INR (fact k) <= exp t).
    { pose proof (is_exp_Reals t) as S. apply is_pseries_R in S. 
      pose proof (is_series_unique _ _ S) as U. assert (X : ex_series (fun i => / INR (fact i) * t ^ i)) by (eexists; exact S).
      rewrite (Series_incr_n _ (Datatypes.S k)) in U; [|lia|exact X]. simpl pred in U.
      rewrite <- U.
      assert (0 <= Series (fun i => / INR (fact (Datatypes.S k + i)) * t ^ (Datatypes.S k + i))).
      { replace 0 with (Series (fun _ => 0)).
        - apply Series_le.
          + intros i. split; [lra|]. apply Rmult_le_pos; [left; apply Rinv_0_lt_compat, INR_fact_lt_0|now apply pow_le].
          + now apply (ex_series_incr_n (fun i => / INR (fact i) * t ^ i) (Datatypes.S k)).
        - apply is_series_unique. unfold is_series. apply (filterlim_ext (fun _ : nat => 0)).
          + intros i. rewrite sum_n_Reals. induction i as [|i IH]; [reflexivity|]. rewrite tech5, <- IH. ring.
          + apply filterlim_const. }
      assert (t ^ k / INR (fact k) <= sum_f_R0 (fun i => / INR (fact i) * t ^ i) k); [|lra].
      destruct k.
      - simpl. lra.
      - rewrite tech5. assert (0 <= sum_f_R0 (fun i => / INR (fact i) * t ^ i) k).
        { apply cond_pos_sum. intros i. apply Rmult_le_pos; [left; apply Rinv_0_lt_compat, INR_fact_lt_0|now apply pow_le]. }
        unfold Rdiv. lra. }
    replace (exp (- t) * t ^ k / INR (fact k)) with (exp (- t) * (t ^ k / INR (fact k))) by (field; lra).
    apply Rle_trans with (exp (- t) * exp t); [apply Rmult_le_compat_l; [left; apply exp_pos|exact G]|].
    rewrite <- exp_plus. replace (- t + t) with 0 by ring. rewrite exp_0. lra.
Qed.

Lemma poisson_along dom l k : continuous_along dom (fun t => pmf (Poisson_dist (mkPoisson t)) (Z.of_nat k)) l.
Proof.
  apply along_continuous. apply (continuous_ext (fun t => exp (- t) * t ^ k / INR (fact k))).
  - intros t. unfold Poisson_dist. cbn [Poisson_lam]. now rewrite poisson_pmf.
  - apply (ex_derive_continuous (V:=R_NormedModule)). auto_derive. auto.
Qed.

Lemma poisson_gamma_predictive_limit (prior : Gamma R) (l : R) (k : nat) : 0 < Gamma_alpha prior -> 0 < Gamma_beta prior ->
  is_lim_seq (fun N => x N / n N) l ->
  is_lim_seq (fun N => pmf (NegativeBinomial_dist (poisson_gamma_predictive (poisson_gamma (x N) (n N) prior) 1)) (Z.of_nat k))
    (pmf (Poisson_dist (mkPoisson l)) (Z.of_nat k)).
Proof.
  intros Ha Hb Hl.
  apply (poisson_gamma_concentrates n x n_pos n_inf x_pos prior l Ha Hb Hl (fun t => pmf (Poisson_dist (mkPoisson t)) (Z.of_nat k)) 1).
  - intros t Ht. unfold Poisson_dist. cbn [Poisson_lam]. rewrite poisson_pmf. unfold positive in Ht. pose proof (poisson_bounded t k ltac:(lra)). rewrite Rabs_pos_eq; lra.
  - apply poisson_along.
  - intros N. apply (poisson_gamma_predictive_marginal (poisson_gamma (x N) (n N) prior) k).
    + cbn. specialize (x_pos N). lra.
    + cbn. specialize (n_pos N). lra.
Qed.

Lemma gamma_known_shape_predictive_limit (prior : Gamma R) (al r y : R) : 0 < Gamma_alpha prior -> 0 < Gamma_beta prior -> 0 < al -> 0 < r -> 0 < y ->
  is_lim_seq (fun N => x N / n N) (al / r) ->
  is_lim_seq (fun N => pdf (CompoundGamma_dist (gamma_known_shape_predictive (gamma_known_shape (x N) (n N) al prior) al)) y)
    (pdf (Gamma_dist (mkGamma al r)) y).
Proof.
  intros Ha Hb Hal Hr Hy Hl. destruct (power_exp_bounded al y Hal Hy) as (M & HM). pose proof (Gamma_fun_pos al Hal) as HG. pose proof (Rpower_pos y (al - 1)) as HY.
  assert (F : forall t, 0 < t -> pdf (Gamma_dist (mkGamma al t)) y = Rpower y (al - 1) / Gamma_fun al * (Rpower t al * exp (- (y * t)))).
  { intros t Ht. unfold Gamma_dist. cbn [Gamma_alpha Gamma_beta]. cbn [ndiv nlit NumR]. rewrite gamma_pdf by assumption. replace (t * y) with (y * t) by ring. field. lra. }
  assert (P : 0 < Rpower y (al - 1) / Gamma_fun al) by now apply Rdiv_lt_0_compat.
  apply (gamma_known_shape_concentrates n x n_pos n_inf x_pos prior al r Ha Hb Hal Hr Hl
    (fun t => pdf (Gamma_dist (mkGamma al t)) y) (Rpower y (al - 1) / Gamma_fun al * M)).
  - intros t Ht. unfold positive in Ht. rewrite F by exact Ht. specialize (HM t Ht). rewrite Rabs_pos_eq; [apply Rmult_le_compat_l; lra|]. apply Rmult_le_pos; lra.
  - apply (along_ext _ _ (fun t => Rpower y (al - 1) / Gamma_fun al * (Rpower t al * exp (- (y * t))))).
    + intros t Ht. now rewrite F.
    + now rewrite F.
    + apply along_continuous. apply (ex_derive_continuous (V:=R_NormedModule)). unfold Rpower at 2. auto_derive. lra.
  - intros N. apply (gamma_known_shape_predictive_marginal (gamma_known_shape (x N) (n N) al prior) al y); auto.
    + cbn. specialize (n_pos N). nra.
    + cbn. specialize (x_pos N). lra.
Qed.
End Streams.

Lemma normal_lik_bounded m s y : 0 < s -> Rabs (pdf (S_norm m s) y) <= / (s * sqrt (2 * PI)).
Proof.
  intros Hs. rewrite norm_pdf by exact Hs. pose proof sqrt_2pi_pos. assert (0 < / (s * sqrt (2 * PI))) by (apply Rinv_0_lt_compat; nra).
  assert (0 < exp (- (y - m) ^ 2 / (2 * s ^ 2)) <= 1).
  { split; [apply exp_pos|]. rewrite <- exp_0. assert (K : - (y - m) ^ 2 / (2 * s ^ 2) <= 0).
    { unfold Rdiv. pose proof (pow2_ge_0 (y - m)). assert (0 < / (2 * s ^ 2)) by (apply Rinv_0_lt_compat; nra). nra. }
    destruct K as [K|K]; [left; now apply exp_increasing|right; now rewrite K]. }
  rewrite Rabs_pos_eq by nra. nra.
Qed.

Lemma normal_known_variance_predictive_limit (n x : nat -> R) (prior : Normal R) (var mu y : R) :
  (forall N, 0 <= n N) -> is_lim_seq n p_infty -> 0 < Normal_sigma prior -> 0 < var ->
  is_lim_seq (fun N => x N / n N) mu ->
  is_lim_seq (fun N => pdf (Normal_dist (normal_known_variance_predictive var (normal_known_variance (x N) (n N) var prior))) y)
    (pdf (Normal_dist (mkNormal mu (sqrt var))) y).
Proof.
  intros Hn Hi Hs Hv Hl. assert (Hsv : 0 < sqrt var) by now apply sqrt_lt_R0.
  apply (normal_known_variance_concentrates n x prior var mu Hn Hi Hs Hv Hl (fun t => pdf (Normal_dist (mkNormal t (sqrt var))) y) (/ (sqrt var * sqrt (2 * PI)))).
  - intros t _. now apply normal_lik_bounded.
  - apply along_continuous. apply (continuous_ext (fun t => / (sqrt var * sqrt (2 * PI)) * exp (- (y - t) ^ 2 / (2 * (sqrt var) ^ 2)))).
    + intros t. unfold Normal_dist. cbn [Normal_mu Normal_sigma]. now rewrite norm_pdf.
    + apply (ex_derive_continuous (V:=R_NormedModule)). auto_derive. auto.
  - intros N. apply (normal_known_variance_predictive_marginal (normal_known_variance (x N) (n N) var prior) var y); [|exact Hv].
    cbn. apply sqrt_lt_R0. specialize (Hn N). apply Rdiv_lt_0_compat; [lra|].
    assert (0 < 1 / (Normal_sigma prior * (Normal_sigma prior * 1))) by (apply Rdiv_lt_0_compat; nra).
    assert (0 <= n N / var) by (apply Rmult_le_pos; [exact Hn|left; now apply Rinv_0_lt_compat]). lra.
Qed.

Lemma normal_known_precision_predictive_limit (n x : nat -> R) (prior : Normal R) (precision mu y : R) :
  (forall N, 0 <= n N) -> is_lim_seq n p_infty -> 0 < Normal_sigma prior -> 0 < precision ->
  is_lim_seq (fun N => x N / n N) mu ->
  is_lim_seq (fun N => pdf (Normal_dist (normal_known_precision_predictive precision (normal_known_precision (x N) (n N) precision prior))) y)
    (pdf (Normal_dist (mkNormal mu (/ sqrt precision))) y).
Proof.
  intros Hn Hi Hs Hp Hl. replace (/ sqrt precision) with (sqrt (1 / precision)).
  - apply (normal_known_variance_predictive_limit n x prior (1 / precision) mu y); auto. apply Rdiv_lt_0_compat; lra.
  - unfold Rdiv. rewrite Rmult_1_l. now rewrite sqrt_inv.
Qed.

Lemma normal_known_mean_predictive_limit (n x x2 : nat -> R) (prior : VariancePrior R) (mu v y : R) :
  (forall N, 0 <= n N) -> is_lim_seq n p_infty -> variance_ok prior -> 0 < v ->
  (forall N, 0 <= x2 N - 2 * mu * x N + n N * mu ^ 2) ->
  is_lim_seq (fun N => (x2 N - 2 * mu * x N + n N * mu ^ 2) / n N) v ->
  is_lim_seq (fun N => pdf (StudentT_dist (normal_known_mean_predictive mu (normal_known_mean (x N) (x2 N) (n N) mu prior))) y)
    (pdf (Normal_dist (mkNormal mu (sqrt v))) y).
Proof.
  intros Hn Hi Hok Hv Hq Hl. destruct (normal_known_mean_spread n x x2 prior mu v Hn Hi Hok Hv Hq Hl) as (a & b & Ha & Hb & L1 & L2 & F).
  pose proof sqrt_2pi_pos as Hp.
  apply (spread_limit _ _ _ ends_pos (fun N => pdf (S_invgamma_scale (a N) (b N)))) with (phi := fun t => / t) (phi0 := / v)
     (V := fun N => a N / b N ^ 2 + (a N / b N - / v) ^ 2) (h := fun t => pdf (Normal_dist (mkNormal mu (sqrt t))) y).
  - intros N t _. exact (proj1 (invgamma_density (a N) (b N) (Ha N) (Hb N)) t).
  - intros N. exact (proj2 (proj2 (invgamma_density (a N) (b N) (Ha N) (Hb N)))).
  - intros N. now apply invgamma_spread.
  - now apply invgamma_spread_lim.
  - apply (growth_bound _ _ _ ends_pos (fun t => / t) (/ v) _ _ (/ sqrt (2 * PI))).
    + intros t Ht. eapply Rle_trans; [apply normal_lik_bounded; now apply sqrt_lt_R0|].
      assert (Hst : 0 < sqrt t) by now apply sqrt_lt_R0. cbn [Normal_sigma]. replace (/ (sqrt t * sqrt (2 * PI))) with (/ sqrt (2 * PI) * / sqrt t) by (field; lra). apply Rmult_le_compat_l; [left; now apply Rinv_0_lt_compat|].
      rewrite <- (sqrt_inv t). set (w := / t). assert (Hw : 0 < w) by now apply Rinv_0_lt_compat.
      pose proof (sqrt_sqrt w ltac:(lra)) as Q. pose proof (sqrt_pos w) as Q0.
      pose proof (pow2_ge_0 w). pose proof (pow2_ge_0 (w - 1)). pose proof (pow2_ge_0 (sqrt w - 1)). set (s := sqrt w) in *.
      assert (s <= (1 + w) / 2) by nra. nra.
    + intros eps He.
      assert (C : continuous_along positive (fun t => pdf (Normal_dist (mkNormal mu (sqrt t))) y) v).
      { apply (along_ext _ _ (fun t => / (sqrt t * sqrt (2 * PI)) * exp (- (y - mu) ^ 2 / (2 * (sqrt t) ^ 2)))).
        - intros t Ht. unfold positive in Ht. unfold Normal_dist. cbn [Normal_mu Normal_sigma]. rewrite norm_pdf; [reflexivity|now apply sqrt_lt_R0].
        - unfold Normal_dist. cbn [Normal_mu Normal_sigma]. rewrite norm_pdf; [reflexivity|now apply sqrt_lt_R0].
        - apply along_continuous. apply (ex_derive_continuous (V:=R_NormedModule)). assert (0 < sqrt v) by now apply sqrt_lt_R0.
          auto_derive. repeat split; auto; nra. }
      destruct (C eps He) as (d & Hd & K). destruct (inv_close v d Hv Hd) as (d' & Hd' & K'). exists d'. split; [exact Hd'|].
      intros t Ht Htd. apply K; [exact Ht|]. now apply K'.
  - intros N. destruct (F N) as (Fok & Fp).
    generalize (normal_known_mean_predictive_marginal (normal_known_mean (x N) (x2 N) (n N) mu prior) mu y Fok).
    unfold marginal. apply (is_RInt_gen_ext_on _ _ _ ends_pos). intros t _. now rewrite Fp.
Qed.
