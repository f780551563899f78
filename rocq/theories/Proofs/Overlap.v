(** Models that describe the same situation give the same answer (or do not). *)

From Coq Require Import Reals Lra ZArith Lia.
From Coquelicot Require Import Coquelicot.
From Verif Require Import Model.Num Model.Py Model.NdArray Model.DirichletModel Model.Dists Model.ScipyDist Model.Models.
From Verif Require Import Spec.Special Spec.Densities Spec.Bayes Spec.Simplex Spec.Containers.
From Verif Require Import Analysis.GammaBeta Analysis.GammaFacts Proofs.Conj Proofs.Pdfs Proofs.Predictive Proofs.Dirichlet Proofs.Refute.
From Coq Require Import List.
Import ListNotations.
Open Scope R_scope.

(** ** two categories *)
Lemma two_categories_update (prior x : container R) (a b s f : R) :
  holds prior [a; b] -> holds x [s; f] -> ~ concatenates prior x ->
  exists out p, multinomial_dirichlet x prior = Ok (mkDirichlet (OVal out)) /\
    categorical_dirichlet x prior = Ok (mkDirichlet (OVal out)) /\
    binomial_beta (s + f) s (mkBeta a b) = p /\ holds out [Beta_alpha p; Beta_beta p].
Proof.
  intros Hp Hx Hc. destruct (params_elementwise prior x [a; b] [s; f] Hp Hx eq_refl Hc) as (out & E & H & _).
  exists out. eexists. unfold multinomial_dirichlet, categorical_dirichlet. rewrite E. split; [reflexivity|]. split; [reflexivity|]. split; [reflexivity|].
  replace [_; _] with (zip_with nadd [a; b] [s; f]); [exact H|].
  unfold zip_with, binomial_beta, get_binomial_beta_posterior_params. cbn [combine map fst snd Beta_alpha Beta_beta].
  f_equal. f_equal. cbn [nadd nsub NumR]. ring.
Qed.

Lemma two_categories_density (a b p : R) : 0 < a -> 0 < b -> 0 < p < 1 ->
  dirichlet_pdf [a; b] [p; 1 - p] = pdf (Beta_dist (mkBeta a b)) p.
Proof.
  intros Ha Hb Hp. unfold dirichlet_pdf, powers, Beta_dist, pdf, std_beta.
  cbn [Beta_alpha Beta_beta map combine fst snd].
  unfold ltb. destruct (Rlt_dec 0 p); [|lra]. destruct (Rlt_dec p 1); [|lra]. cbn [andb Rif].
  rewrite Beta_fun_Gamma by assumption. unfold prodR, sumR; cbn [fold_right].
  pose proof (Gamma_fun_pos a Ha). pose proof (Gamma_fun_pos b Hb). pose proof (Gamma_fun_pos (a + b) ltac:(lra)).
  rewrite Rplus_0_r. field. lra.
Qed.

Lemma two_categories_mass (a b : R) (n k : nat) : 0 < a -> 0 < b -> (k <= n)%nat ->
  dirichlet_multinomial_pmf [a; b] n [k; n - k]%nat = pmf (BetaBinomial_dist (mkBetaBinomial (INR n) a b)) (Z.of_nat k).
Proof.
  intros Ha Hb Hk. unfold dirichlet_multinomial_pmf, BetaBinomial_dist, pmf.
  cbn [BetaBinomial_n BetaBinomial_alpha BetaBinomial_beta]. rewrite Rnat_INR, Nat2Z.id.
  replace (sumN [k; n - k]%nat) with n by (unfold sumN; cbn [fold_right]; lia). rewrite Nat.eqb_refl.
  replace (0 <=? Z.of_nat k)%Z with true by (symmetry; apply Z.leb_le; lia).
  replace (k <=? n)%nat with true by (symmetry; apply Nat.leb_le; lia). cbn [andb].
  unfold sumR, prodR; cbn [map combine fst snd fold_right].
  pose proof (pos_INR k) as Pk. pose proof (pos_INR (n - k)) as Pnk. rewrite <- minus_INR by assumption.
  rewrite !Beta_fun_Gamma by lra.
  rewrite choose_fact by assumption.
  rewrite !Gamma_fun_fact.
  replace (INR k + a + (INR (n - k) + b)) with (INR n + (a + (b + 0))) by (rewrite minus_INR by assumption; ring).
  rewrite Rplus_0_r.
  pose proof (Gamma_fun_pos a Ha). pose proof (Gamma_fun_pos b Hb). pose proof (Gamma_fun_pos (a + b) ltac:(lra)).
  pose proof (pos_INR n). pose proof (Gamma_fun_pos (INR n + (a + b)) ltac:(lra)).
  pose proof (INR_fact_neq_0 k). pose proof (INR_fact_neq_0 (n - k)).
  field. lra.
Qed.

(** ** geometric and negative binomial *)
Lemma geometric_is_negative_binomial (x n : R) (prior : Beta R) :
  geometric_beta x n prior false = negative_binomial_beta 1 n x prior /\
  geometric_beta x n prior true = negative_binomial_beta 1 n (x - n) prior.
Proof.
  unfold geometric_beta, negative_binomial_beta; cbn [nadd nsub nmul NumR].
  split; f_equal; ring.
Qed.

Lemma choose_1 k : choose (1 + INR k - 1) k = 1.
Proof.
  unfold choose. replace (1 + INR k - 1) with (INR k) by ring. rewrite falling_C by auto.
  rewrite Nat.sub_diag. simpl. pose proof (INR_fact_neq_0 k). field. auto.
Qed.
Lemma Beta_fun_shrinks a b : 0 < a -> 0 < b -> Beta_fun a (b + 1) < Beta_fun a b.
Proof.
  intros Ha Hb. rewrite Beta_fun_succ_r by auto. pose proof (Beta_fun_pos a b Ha Hb).
  rewrite <- (Rmult_1_r (Beta_fun a b)) at 2. apply Rmult_lt_compat_l; auto.
  apply (Rmult_lt_reg_r (a + b)); [lra|]. unfold Rdiv. rewrite Rmult_assoc, Rinv_l by lra. lra.
Qed.
Lemma geometric_predictive_shift (release : list nat) (d : Beta R) (k : nat) :
  tuple_lt release [1; 12; 0]%nat = false ->
  0 < Beta_alpha d -> 0 < Beta_beta d ->
  exists D, BetaNegativeBinomial_dist release (negative_binomial_beta_predictive 1 d) = Ok D /\
    pmf (BetaGeometric_dist (geometric_beta_predictive d false)) (Z.of_nat k) = pmf D (Z.of_nat k + 1) /\
    pmf (BetaGeometric_dist (geometric_beta_predictive d true)) (Z.of_nat k + 1) = pmf D (Z.of_nat k + 1) /\
    pmf D (Z.of_nat k + 1) < pmf D (Z.of_nat k).
Proof.
  intros Hr Ha Hb. unfold BetaNegativeBinomial_dist. rewrite Hr. eexists; split; [reflexivity|].
  unfold negative_binomial_beta_predictive, geometric_beta_predictive, BetaGeometric_dist.
  cbn [BetaGeometric_alpha BetaGeometric_beta BetaGeometric_one_start BetaNegativeBinomial_n BetaNegativeBinomial_alpha BetaNegativeBinomial_beta].
  destruct d as [a b]. cbn [Beta_alpha Beta_beta] in *.
  assert (E : forall j, pmf (S_betanbinom 1 a b) (Z.of_nat j) = Beta_fun (a + 1) (INR j + b) / Beta_fun a b).
  { intros j. unfold pmf. replace (0 <=? Z.of_nat j)%Z with true by (symmetry; apply Z.leb_le; lia).
    rewrite Nat2Z.id, choose_1. rewrite (Rplus_comm b). unfold Rdiv. ring. }
  replace (Z.of_nat k + 1)%Z with (Z.of_nat (S k)) by lia. rewrite !E.
  unfold pmf, beta_geometric_pmf. cbn [nadd ndiv nlit NumR]. rewrite !INR_IZR_INZ, Nat2Z.inj_succ, <- Z.add_1_r, plus_IZR.
  split; [reflexivity|]. split; [reflexivity|].
  rewrite <- INR_IZR_INZ. pose proof (pos_INR k).
  apply Rmult_lt_compat_r; [apply Rinv_0_lt_compat; now apply Beta_fun_pos|].
  replace (INR k + 1 + b) with (INR k + b + 1) by ring. apply Beta_fun_shrinks; lra.
Qed.

(** ** Pareto, inverse gamma, Weibull: gamma likelihoods of transformed data *)
Lemma sum_ln_ratio xs m : 0 < m -> Forall (fun x => 0 < x) xs ->
  sumR (map (fun x => ln (x / m)) xs) = sumR (map ln xs) - INR (length xs) * ln m.
Proof.
  intros Hm H. induction H; [simpl; ring|].
  cbn [map length]. rewrite S_INR. change (sumR (?u :: ?v)) with (u + sumR v).
  change (sumR (ln (x / m) :: map (fun x => ln (x / m)) l)) with (ln (x / m) + sumR (map (fun x => ln (x / m)) l)).
  change (sumR (ln x :: map ln l)) with (ln x + sumR (map ln l)).
  rewrite IHForall, ln_div by assumption. ring.
Qed.
Lemma pareto_is_exponential_of_logs (xs : list R) (m : R) (prior : Gamma R) :
  0 < m -> Forall (fun x => 0 < x) xs ->
  pareto_gamma ln (INR (length xs)) (sumR (map ln xs)) m prior =
  gamma_known_shape (sumR (map (fun x => ln (x / m)) xs)) (INR (length xs)) 1 prior.
Proof.
  intros Hm H. rewrite sum_ln_ratio by assumption. unfold pareto_gamma, gamma_known_shape.
  cbn [nadd nsub nmul NumR]. f_equal; ring.
Qed.

Lemma inverse_gamma_is_gamma_of_reciprocals (x n alpha : R) (prior : Gamma R) :
  inverse_gamma_known_rate x n alpha prior = gamma_known_shape x n alpha prior.
Proof. reflexivity. Qed.

Lemma weibull_is_exponential_of_powers (xs : list R) (shape a b : R) :
  exists a' b',
    weibull_inverse_gamma_known_shape (INR (length xs)) (sumR (map (fun x => Rpower x shape) xs)) (mkInverseGamma a b) = mkInverseGamma a' b' /\
    gamma_known_shape (sumR (map (fun x => Rpower x shape) xs)) (INR (length xs)) 1 (mkGamma a b) = mkGamma a' b'.
Proof.
  do 2 eexists. split; [reflexivity|]. unfold gamma_known_shape. cbn [nadd nmul NumR Gamma_alpha Gamma_beta InverseGamma_alpha InverseGamma_beta].
  f_equal. ring.
Qed.

(** ** exponential *)
Lemma exponential_exchanged (x n : R) (prior : Gamma R) :
  exponential_gamma n x prior = gamma_known_shape x n 1 prior /\
  (x <> n -> exponential_gamma x n prior <> gamma_known_shape x n 1 prior).
Proof.
  unfold exponential_gamma, gamma_known_shape, get_exponential_gamma_posterior_params, get_poisson_gamma_posterior_params.
  cbn [nadd nmul NumR]. split; [f_equal; ring|]. intros Hx E. injection E as E1 E2. apply Hx. lra.
Qed.
Lemma exponential_predictive_exchanged (a b x : R) : 0 < a -> 0 < b -> 0 < x ->
  pdf (CompoundGamma_dist (gamma_known_shape_predictive (mkGamma a b) 1)) x
  = pdf (Lomax_dist (exponential_gamma_predictive (mkGamma b a))) x.
Proof.
  intros Ha Hb Hx. unfold exponential_gamma_predictive, Lomax_dist, gamma_known_shape_predictive, CompoundGamma_dist.
  cbn [Gamma_alpha Gamma_beta Lomax_alpha Lomax_lam CompoundGamma_alpha CompoundGamma_beta CompoundGamma_lam].
  rewrite lomax_pdf by lra. unfold pdf, compound_gamma_pdf. cbn [npow ndiv nsub nadd nmul nlit NumR].
  replace (1 - 1) with 0 by ring.
  assert (Hq : 0 < x / b) by (apply Rdiv_lt_0_compat; assumption).
  rewrite Beta_fun_Gamma by lra.
  rewrite (Rplus_comm 1 a), Gamma_fun_succ by assumption. rewrite Gamma_fun_1.
  pose proof (Gamma_fun_pos a Ha).
  rewrite Rpower_O by assumption.
  replace (0 - 1 - a) with (- (a + 1)) by ring. rewrite Rpower_Ropp.
  replace (b + x) with ((1 + x / b) * b) by (field; lra). rewrite <- (Rpower_mult_distr (1 + x / b) b) by lra.
  rewrite (Rpower_plus a 1 b), Rpower_1 by assumption.
  assert (H1 : 0 < Rpower (1 + x / b) (a + 1)) by apply exp_pos. assert (H2 : 0 < Rpower b a) by apply exp_pos.
  field. lra.
Qed.

(** ** gamma and gamma_known_rate *)
Lemma gamma_slices (lgamma : R -> R) (p q r s x_prod x_total n alpha beta : R) :
  let joint := gamma x_total x_prod n (mkGammaProportional p q r s) in
  let slice := gamma_known_rate x_prod n beta (mkGammaKnownRateProportional p r s) in
  GammaProportional_approx_log_likelihood ln lgamma joint alpha beta =
  GammaKnownRateProportional_approx_log_likelihood ln lgamma slice alpha beta - (q + x_total) * beta.
Proof.
  cbv zeta. unfold GammaProportional_approx_log_likelihood, GammaKnownRateProportional_approx_log_likelihood, gamma, gamma_known_rate.
  cbn [GammaProportional_p GammaProportional_q GammaProportional_r GammaProportional_s
       GammaKnownRateProportional_a GammaKnownRateProportional_b GammaKnownRateProportional_c nadd nsub nmul nlit NumR].
  ring.
Qed.

(** ** hypergeometric and binomial *)
Lemma hypergeometric_is_binomial (x n : R) (prior : BetaBinomial R) :
  exists p, binomial_beta (BetaBinomial_n prior) x (mkBeta (BetaBinomial_alpha prior) (BetaBinomial_beta prior)) = p /\
  hypergeometric_beta_binomial x n prior = binomial_beta_predictive (BetaBinomial_n prior) p.
Proof. eexists. split; reflexivity. Qed.

(** ** the two normal priors *)
Lemma normal_priors_agree M (x_total x2_total n m nu a b : R) :
  exists m' nu' a' b',
    normal x_total x2_total n (PNIG (M := M) (mkNormalInverseGamma m a b None (Some nu))) =
      Ok (PNIG (mkNormalInverseGamma m' a' b' None (Some nu'))) /\
    normal x_total x2_total n (PNG (M := M) (mkNormalGamma m nu a b)) = Ok (PNG (mkNormalGamma m' nu' a' b')).
Proof. do 4 eexists. split; reflexivity. Qed.
