(** Properties the scalar code does not have: witnesses, and what holds instead. *)

From Coq Require Import Reals Lra Psatz ZArith Lia Classical.
From Coquelicot Require Import Coquelicot.
From Verif Require Import Model.Num Model.Py Model.Dists Model.ScipyDist Model.Models Spec.Special Spec.Densities Spec.Bayes.
From Verif Require Import Analysis.Improper Analysis.RealAux Analysis.GammaBeta Analysis.GammaFacts Analysis.Gauss Proofs.Pdfs Proofs.Conj Proofs.Predictive Proofs.Proportional.
From Coq Require Import List.
Import ListNotations.
Open Scope R_scope.

Lemma bayes_unique (I : R -> Prop) Fa Fb (E : Ends I Fa Fb) prior lik p1 p2 :
  bayes_posterior Fa Fb prior lik p1 -> bayes_posterior Fa Fb prior lik p2 -> forall t, p1 t = p2 t.
Proof.
  intros (e1 & _ & I1 & H1) (e2 & _ & I2 & H2) t.
  rewrite H1, H2, (is_RInt_gen_unique_on _ _ _ E _ _ _ I1 I2). reflexivity.
Qed.

Lemma Rpower_pow2 x : 0 < x -> Rpower x 2 = x * x.
Proof. intros. replace 2 with (INR 2) by (simpl; ring). rewrite Rpower_INR by auto. simpl. ring. Qed.
Lemma Rpower_pow3 x : 0 < x -> Rpower x 3 = x * x * x.
Proof. intros. replace 3 with (INR 3) by (simpl; ring). rewrite Rpower_INR by auto. simpl. ring. Qed.

Lemma Gamma_fun_2 : Gamma_fun 2 = 1.
Proof. replace 2 with (INR 1 + 1) by (simpl; ring). rewrite Gamma_fun_fact. reflexivity. Qed.
Lemma Gamma_fun_3 : Gamma_fun 3 = 2.
Proof. replace 3 with (INR 2 + 1) by (simpl; ring). rewrite Gamma_fun_fact. simpl. ring. Qed.

(** C05: with prior Gamma(1,1) and the single observation 2, the library says
    Gamma(3,2); the posterior is Gamma(2,3). *)
Lemma exponential_gamma_not_bayes :
  ~ bayes_posterior Fpos0 Finf (pdf (Gamma_dist (mkGamma 1 1)))
    (likelihood (fun rate x => pdf (S_expon_scale (/ rate)) x) [2])
    (pdf (Gamma_dist (exponential_gamma (sumR [2]) (INR (length [2])) (mkGamma 1 1)))).
Proof.
  intros H.
  assert (HF : Forall (fun x => 0 <= x) [2]) by (repeat constructor; lra).
  pose proof (exponential_rate_bayes (mkGamma 1 1) [2] Rlt_0_1 Rlt_0_1 HF) as H'.
  pose proof (bayes_unique _ _ _ ends_pos _ _ _ _ H H') as E.
  unfold exponential_gamma, get_exponential_gamma_posterior_params, get_poisson_gamma_posterior_params, Gamma_dist in E.
  cbv [Gamma_alpha Gamma_beta nadd ndiv nlit NumR sumR fold_right length INR] in E.
  replace (1 + (2 + 0)) with 3 in E by ring. replace (1 + 1) with 2 in E by ring.
  pose proof (E 1) as E1. pose proof (E 2) as E2.
  rewrite !gamma_pdf in E1, E2 by lra. rewrite Gamma_fun_2, Gamma_fun_3 in E1, E2.
  replace (3 - 1) with 2 in E1, E2 by ring. replace (2 - 1) with 1 in E1, E2 by ring.
  rewrite !Rpower_pow2, !Rpower_pow3, !Rpower_1 in E1, E2 by lra.
  replace (- (3 * 1)) with (- (2 * 1) + - (1)) in E1 by ring.
  replace (- (3 * 2)) with (- (2 * 2) + (- (1) + - (1))) in E2 by ring.
  rewrite exp_plus in E1. rewrite (exp_plus _ (_ + _)), (exp_plus (- (1))) in E2.
  pose proof (exp_pos (- (2 * 1))). pose proof (exp_pos (- (2 * 2))). pose proof (exp_pos (-(1))).
  set (u := exp (- (1))) in *. set (p := exp (- (2 * 1))) in *. set (q := exp (- (2 * 2))) in *.
  assert (4 = 9 * u) by (apply Rmult_eq_reg_r with p; [|lra]; lra).
  assert (16 = 18 * (u * u)). { apply Rmult_eq_reg_r with q; [|lra]. lra. }
  nra.
Qed.

Lemma exponential_lomax_marginal (a b x : R) : 0 < a -> 0 < b -> 0 <= x ->
  marginal Fpos0 Finf (pdf (Gamma_dist (mkGamma a b))) (fun rate => pdf (S_expon_scale (/ rate)) x)
    (pdf (S_lomax_scale a b) x).
Proof.
  intros Ha Hb Hx. pose proof (Gamma_fun_pos a Ha).
  apply (marginal_kernel _ _ _ ends_pos _ _ (fun t => Rpower t (a + 1 - 1) * exp (- ((b + x) * t)))
     (Rpower b a / Gamma_fun a) (Gamma_fun (a + 1) / Rpower (b + x) (a + 1))).
  - intros t Ht. rewrite expon_pdf by (auto; now apply Rinv_0_lt_compat).
    cbv [Gamma_dist Gamma_alpha Gamma_beta ndiv nlit NumR]. rewrite gamma_pdf by auto.
    replace (a + 1 - 1) with (1 + (a - 1)) by ring. rewrite Rpower_plus, Rpower_1 by auto.
    replace (- ((b + x) * t)) with (- (x / / t) + - (b * t)) by (field; lra). rewrite exp_plus. field. lra.
  - apply is_RInt_gen_Gamma_scaled; lra.
  - rewrite lomax_pdf by auto. rewrite Gamma_fun_succ by auto.
    assert (0 < Rpower (b + x) (a + 1)) by apply Rpower_pos. field. lra.
Qed.

Lemma exponential_gamma_predictive_not_marginal :
  ~ marginal Fpos0 Finf (pdf (Gamma_dist (mkGamma 1 2))) (fun rate => pdf (S_expon_scale (/ rate)) 0)
    (pdf (Lomax_dist (exponential_gamma_predictive (mkGamma 1 2))) 0).
Proof.
  intros H. pose proof (exponential_lomax_marginal 1 2 0 ltac:(lra) ltac:(lra) ltac:(lra)) as H'.
  pose proof (is_RInt_gen_unique_on _ _ _ ends_pos _ _ _ H H') as E.
  cbv [Lomax_dist exponential_gamma_predictive Lomax_alpha Lomax_lam Gamma_alpha Gamma_beta] in E.
  rewrite !lomax_pdf in E by lra.
  replace (2 + 1) with 3 in E by ring. replace (1 + 0) with 1 in E by ring. replace (2 + 0) with 2 in E by ring.
  replace (1 + 1) with 2 in E by ring. rewrite ?Rpower_pow2, ?Rpower_pow3, ?Rpower_1 in E by lra. lra.
Qed.

(** With the two Gamma parameters read in the exchanged roles (alpha the rate,
    beta the shape) both functions are right. *)
Lemma exponential_gamma_swapped (prior : Gamma R) (data : list R) :
  0 < Gamma_alpha prior -> 0 < Gamma_beta prior -> Forall (fun x => 0 <= x) data ->
  let as_dist d := S_gamma_scale (Gamma_beta d) (1 / Gamma_alpha d) in
  bayes_posterior Fpos0 Finf (pdf (as_dist prior))
    (likelihood (fun rate x => pdf (S_expon_scale (/ rate)) x) data)
    (pdf (as_dist (exponential_gamma (sumR data) (INR (length data)) prior))) /\
  (forall x, 0 <= x ->
    marginal Fpos0 Finf (pdf (as_dist prior)) (fun rate => pdf (S_expon_scale (/ rate)) x)
     (pdf (Lomax_dist (exponential_gamma_predictive prior)) x)).
Proof.
  destruct prior as [a b]. simpl Gamma_alpha. simpl Gamma_beta. intros Ha Hb H. split.
  - exact (exponential_rate_bayes (mkGamma b a) data Hb Ha H).
  - intros x Hx. exact (exponential_lomax_marginal b a x Hb Ha Hx).
Qed.

(** C22 *)
Lemma geometric_beta_predictive_not_marginal :
  ~ marginal Fpos0 Fone (pdf (Beta_dist (mkBeta 1 1)))
    (fun p => pmf (Geometric_dist (mkGeometric p true)) 1)
    (pmf (BetaGeometric_dist (geometric_beta_predictive (mkBeta 1 1) true)) 1).
Proof.
  intros H.
  pose proof (geometric_marginal (mkBeta 1 1) true 0 Rlt_0_1 Rlt_0_1) as H1.
  pose proof (geometric_marginal (mkBeta 1 1) true 1 Rlt_0_1 Rlt_0_1) as H2.
  pose proof (geometric_beta_predictive_shifted (mkBeta 1 1) true 1 Rlt_0_1 Rlt_0_1 ltac:(simpl; lia)) as H3.
  pose proof (is_RInt_gen_unique_on _ _ _ E01 _ _ _ H H1) as E1.
  pose proof (is_RInt_gen_unique_on _ _ _ E01 _ _ _ H3 H2) as E2.
  rewrite E1 in E2. simpl Beta_alpha in E2. simpl Beta_beta in E2. simpl INR in E2.
  replace (0 + 1) with 1 in E2 by ring.
  rewrite !Beta_fun_succ_l in E2 by lra. rewrite Beta_fun_succ_r in E2 by lra.
  pose proof (Beta_fun_pos 1 1 Rlt_0_1 Rlt_0_1).
  match type of E2 with ?l = ?r => assert (l = 1 / 2) by (field; lra); assert (r = 1 / 6) by (field; lra) end.
  lra.
Qed.

(** C23 *)
Lemma poisson_gamma_predictive_not_marginal :
  ~ marginal Fpos0 Finf (pdf (Gamma_dist (mkGamma 1 1)))
     (fun lam => pmf (Poisson_dist (mkPoisson (2 * lam))) (Z.of_nat 0))
     (pmf (NegativeBinomial_dist (poisson_gamma_predictive (mkGamma 1 1) 2)) (Z.of_nat 0)).
Proof.
  intros H. pose proof (poisson_gamma_marginal 1 1 2 0 Rlt_0_1 Rlt_0_1 ltac:(lra)) as H'.
  pose proof (is_RInt_gen_unique_on _ _ _ ends_pos _ _ _ H H') as E.
  cbv [NegativeBinomial_dist poisson_gamma_predictive NegativeBinomial_n NegativeBinomial_p Gamma_alpha Gamma_beta nmul ndiv nadd nlit NumR] in E.
  rewrite !nbinom_pmf in E. simpl in E. rewrite !Rmult_1_r in E.
  rewrite Rpower_pow2, Rpower_1 in E by lra. lra.
Qed.

(** C41 *)
Lemma Exponential_dist_not_rate : pdf (Exponential_dist (mkExponential 2)) 0 <> 2 * exp (- (2 * 0)).
Proof.
  cbv [Exponential_dist Exponential_lam]. rewrite expon_pdf by lra.
  replace (- (0 / 2)) with 0 by field. replace (- (2 * 0)) with 0 by ring. rewrite exp_0. lra.
Qed.

Lemma Uniform_dist_not_uniform : pdf (Uniform_dist (mkUniform 1 2)) (5 / 2) = 1 / 2.
Proof. cbv [Uniform_dist Uniform_low Uniform_high]. rewrite uniform_pdf by lra. lra. Qed.

Lemma LogNormal_dist_not_lognormal : pdf (LogNormal_dist (mkLogNormal 1 1)) (1 / 2) = 0.
Proof.
  cbv [LogNormal_dist LogNormal_mu LogNormal_sigma]. simpl. unfold locscale, std_lognorm.
  rewrite ltb_false by lra. simpl. lra.
Qed.

(** C16: prior with concentration 1 towards 0, known concentration 1, one
    observation at 0: the library's posterior is flat. *)
Lemma von_mises_known_concentration_not_bayes (arctan2 : R -> R -> R) :
  let post := von_mises_known_concentration sin cos arctan2 (sumR (map cos [0])) (sumR (map sin [0])) 1 1
                (mkVonMisesKnownConcentration 1 0) in
  ~ proportional (fun _ => True)
    (fun mu => pdf (VonMises_dist (mkVonMises (VonMisesKnownConcentration_b post) (VonMisesKnownConcentration_a post))) mu)
    (fun mu => pdf (VonMises_dist (mkVonMises 0 1)) mu * likelihood (fun mu x => pdf (VonMises_dist (mkVonMises mu 1)) x) [0] mu).
Proof.
  intros post (K & HK & H).
  pose proof (H 0 I) as H0. pose proof (H PI I) as H1. clear H.
  unfold post in *. cbv [von_mises_known_concentration VonMisesKnownConcentration_a VonMisesKnownConcentration_b nmul nadd NumR VonMises_dist VonMises_mu VonMises_kappa map sumR fold_right] in H0, H1.
  rewrite likelihood_cons, likelihood_nil in H0, H1. cbv beta in H0, H1. rewrite !vonmises_pdf in H0, H1.
  rewrite sin_0 in H0, H1. replace (1 * (1 * 0 + (0 + 0))) with 0 in H0, H1 by ring.
  rewrite !Rmult_0_l, exp_0 in H0, H1.
  rewrite !Rminus_0_r, cos_0 in H0. rewrite vonmises_pdf in H1. rewrite Rminus_0_r, cos_minus, cos_PI, cos_0, sin_0, sin_PI in H1.
  assert (E : exp (1 * 1) * exp (1 * 1) = exp (1 * -1) * exp (1 * -1)).
  { pose proof (Bessel_i0_pos 1). pose proof PI_RGT_0.
    replace (1 * (1 * -1 + 0 * 0)) with (1 * -1) in H1 by ring.
    assert (E2 := eq_trans (eq_sym H0) H1). 
    apply Rmult_eq_reg_l with (K / (2 * PI * Bessel_i0 1) / (2 * PI * Bessel_i0 1)).
    - unfold Rdiv in *. lra.
    - apply Rgt_not_eq. repeat apply Rdiv_lt_0_compat; nra. }
  rewrite <- !exp_plus in E. apply exp_inv in E. lra.
Qed.

(** The documented log likelihood is not the log of a von Mises density either. *)
Lemma von_mises_log_likelihood_not_density :
  ~ proportional (fun _ => True)
    (fun mu => exp (VonMisesKnownConcentration_log_likelihood cos ln Bessel_i0 (mkVonMisesKnownConcentration 2 0) mu))
    (fun mu => pdf (VonMises_dist (mkVonMises 0 2)) mu).
Proof.
  intros (K & HK & H). pose proof (H 0 I) as H0. pose proof (H PI I) as H1. clear H.
  cbv [VonMisesKnownConcentration_log_likelihood VonMisesKnownConcentration_a VonMisesKnownConcentration_b nsub nadd NumR VonMises_dist VonMises_mu VonMises_kappa] in H0, H1.
  rewrite !vonmises_pdf in H0, H1. rewrite !Rminus_0_r in H0, H1. rewrite cos_0 in H0. rewrite cos_PI in H1.
  pose proof (Bessel_i0_pos 2) as HI. pose proof PI_RGT_0.
  unfold Rminus in H0, H1. rewrite (exp_plus (2 + 1)) in H0. rewrite (exp_plus (2 + -1)) in H1.
  set (c := exp (- ln (Bessel_i0 2))) in *. assert (0 < c) by apply exp_pos.
  set (i := Bessel_i0 2) in *.
  assert (E : exp (2 + 1) * exp (2 * - 1) = exp (2 + - 1) * exp (2 * 1)).
  { apply Rmult_eq_reg_l with (c * (K / (2 * PI * i))).
    - transitivity ((exp (2 + 1) * c) * (K * (exp (2 * -1) / (2 * PI * i)))). unfold Rdiv; ring.
      rewrite H0, <- H1. unfold Rdiv; ring.
    - apply Rgt_not_eq. apply Rmult_lt_0_compat; auto. apply Rdiv_lt_0_compat; auto. nra. }
  rewrite <- !exp_plus in E. apply exp_inv in E. lra.
Qed.

(** When the concentration of the data is 1, the returned direction is the true
    one (only the concentration is wrong). *)
Lemma von_mises_direction_kappa_1 (arctan2 : R -> R -> R) (a b n : R) (data : list R) :
  is_arctan2 arctan2 ->
  let post := von_mises_known_concentration sin cos arctan2 (sumR (map cos data)) (sumR (map sin data)) n 1
                (mkVonMisesKnownConcentration a b) in
  exists conc, proportional (fun _ => True)
    (fun mu => pdf (VonMises_dist (mkVonMises (VonMisesKnownConcentration_b post) conc)) mu)
    (fun mu => pdf (VonMises_dist (mkVonMises b a)) mu * likelihood (fun mu x => pdf (VonMises_dist (mkVonMises mu 1)) x) data mu).
Proof.
  intros H2 post.
  destruct (H2 (a * sin b + sumR (map sin data)) (a * cos b + sumR (map cos data))) as [Hc Hs].
  exists (sqrt ((a * cos b + sumR (map cos data)) ^ 2 + (a * sin b + sumR (map sin data)) ^ 2)).
  apply von_mises_true_posterior; rewrite (Rmult_1_l (sumR _)); [exact Hc|exact Hs].
Qed.

(** C17 *)
Lemma Beta_fun_val_24 : Beta_fun 2 4 = 1 / 20.
Proof.
  rewrite Beta_fun_Gamma by lra. replace 4 with (INR 3 + 1) by (simpl; ring).
  replace (2 + (INR 3 + 1)) with (INR 5 + 1) by (simpl; ring). rewrite !Gamma_fun_fact, Gamma_fun_2. simpl. field.
Qed.

(** Population of 2 with a uniform prior on the number of successes; one draw, a
    success.  The library still gives positive mass to "no successes at all". *)
Lemma hypergeometric_impossible :
  0 < pmf (BetaBinomial_dist (hypergeometric_beta_binomial 1 1 (mkBetaBinomial 2 1 1))) 0 /\
  pmf (Hypergeometric_dist (mkHypergeometric 2 0 1)) 1 = 0.
Proof.
  split.
  - cbv [hypergeometric_beta_binomial BetaBinomial_dist BetaBinomial_n BetaBinomial_alpha BetaBinomial_beta nadd nsub nlit NumR].
    change 2 with (INR 2). change 0%Z with (Z.of_nat 0). rewrite betabinom_pmf by lia.
    apply Rdiv_lt_0_compat. apply Rmult_lt_0_compat. apply choose_pos; lia.
    apply Beta_fun_pos; simpl; lra. apply Beta_fun_pos; simpl; lra.
  - cbv [Hypergeometric_dist Hypergeometric_N Hypergeometric_k Hypergeometric_n]. unfold pmf.
    change 0 with (INR 0) at 1 2 3. rewrite !Rnat_INR. reflexivity.
Qed.

(** The result does not depend on the number of draws. *)
Lemma hypergeometric_ignores_n (x n n' : R) (prior : BetaBinomial R) :
  hypergeometric_beta_binomial x n prior = hypergeometric_beta_binomial x n' prior.
Proof. reflexivity. Qed.

Lemma choose_fact n k : (k <= n)%nat -> choose (INR n) k = INR (fact n) / (INR (fact k) * INR (fact (n - k))).
Proof. intros. rewrite choose_C by auto. reflexivity. Qed.

Lemma hypergeom_pmf (M n N k : nat) : (k <= n)%nat -> (k <= N)%nat -> (n <= M)%nat -> (N - k <= M - n)%nat ->
  pmf (S_hypergeom (INR M) (INR n) (INR N)) (Z.of_nat k) = choose (INR n) k * choose (INR (M - n)) (N - k) / choose (INR M) N.
Proof.
  intros H1 H2 H3 H4. unfold pmf. rewrite !Rnat_INR, Nat2Z.id.
  replace (0 <=? Z.of_nat k)%Z with true by (symmetry; apply Z.leb_le; lia).
  replace (k <=? n)%nat with true by (symmetry; apply Nat.leb_le; lia).
  replace (k <=? N)%nat with true by (symmetry; apply Nat.leb_le; lia).
  replace (N - k <=? M - n)%nat with true by (symmetry; apply Nat.leb_le; lia).
  simpl. rewrite minus_INR by auto. reflexivity.
Qed.

(** The true posterior of the number [m] of successes in a population of [N]
    after [x] successes in [n] draws: [m - x] is BetaBinomial(N - n, alpha + x, beta + n - x). *)
Lemma hypergeometric_true_posterior (N n x : nat) (a b : R) : 0 < a -> 0 < b -> (x <= n)%nat -> (n <= N)%nat ->
  proportional (fun m => x <= m /\ m <= N - (n - x))%nat
    (fun m => pmf (BetaBinomial_dist (mkBetaBinomial (INR (N - n)) (a + INR x) (b + INR (n - x)))) (Z.of_nat (m - x)))
    (fun m => pmf (BetaBinomial_dist (mkBetaBinomial (INR N) a b)) (Z.of_nat m)
            * pmf (Hypergeometric_dist (mkHypergeometric (INR N) (INR m) (INR n))) (Z.of_nat x)).
Proof.
  intros Ha Hb Hx Hn.
  pose proof (Beta_fun_pos a b Ha Hb). pose proof (pos_INR x). pose proof (pos_INR (n - x)).
  pose proof (Beta_fun_pos (a + INR x) (b + INR (n - x)) ltac:(lra) ltac:(lra)).
  pose proof (choose_pos n x Hx).
  exists (Beta_fun a b / Beta_fun (a + INR x) (b + INR (n - x)) / choose (INR n) x). split.
  { apply Rdiv_lt_0_compat; [apply Rdiv_lt_0_compat|]; assumption. }
  intros m [Hm1 Hm2].
  cbv [BetaBinomial_dist BetaBinomial_n BetaBinomial_alpha BetaBinomial_beta Hypergeometric_dist Hypergeometric_N Hypergeometric_k Hypergeometric_n].
  rewrite !betabinom_pmf, hypergeom_pmf by lia.
  replace (INR (m - x) + (a + INR x)) with (INR m + a) by (rewrite minus_INR by lia; ring).
  replace (INR (N - n) - INR (m - x) + (b + INR (n - x))) with (INR N - INR m + b) by (rewrite !minus_INR by lia; ring).
  assert (HBm : 0 < Beta_fun (INR m + a) (INR N - INR m + b)).
  { apply Beta_fun_pos. pose proof (pos_INR m). lra. assert (INR m <= INR N) by (apply le_INR; lia). lra. }
  rewrite !choose_fact by lia.
  replace (N - n - (m - x))%nat with (N - m - (n - x))%nat by lia.
  pose proof (fact_pos N). pose proof (fact_pos n). pose proof (fact_pos x). pose proof (fact_pos m).
  pose proof (fact_pos (N - n)). pose proof (fact_pos (N - m)). pose proof (fact_pos (n - x)). pose proof (fact_pos (m - x)).
  pose proof (fact_pos (N - m - (n - x))).
  field. repeat split; lra.
Qed.

Lemma hypergeometric_not_bayes :
  ~ proportional (fun m => m <= 2)%nat
    (fun m => pmf (BetaBinomial_dist (hypergeometric_beta_binomial 1 1 (mkBetaBinomial 2 1 1))) (Z.of_nat m))
    (fun m => pmf (BetaBinomial_dist (mkBetaBinomial 2 1 1)) (Z.of_nat m)
            * pmf (Hypergeometric_dist (mkHypergeometric 2 (INR m) 1)) 1).
Proof.
  intros (K & HK & H). specialize (H 0%nat ltac:(lia)). destruct hypergeometric_impossible as [H1 H2].
  change (Z.of_nat 0) with 0%Z in H. simpl INR in H. rewrite H2, !Rmult_0_r in H. lra.
Qed.
