(** Exactly when the wrong functions happen to be right. *)

From Coq Require Import Reals Lra Psatz ZArith Lia.
From Coquelicot Require Import Coquelicot.
From Verif Require Import Model.Num Model.Py Model.Dists Model.ScipyDist Model.Models Spec.Special Spec.Densities Spec.Bayes Spec.Joint.
From Verif Require Import Analysis.Improper Analysis.RealAux Analysis.GammaBeta Analysis.GammaFacts Proofs.Pdfs Proofs.Conj Proofs.Predictive Proofs.Joint Proofs.Proportional Proofs.Seq Proofs.Refute Proofs.Convert Proofs.Domain.
From Coq Require Import List.
Import ListNotations.
Open Scope R_scope.

(** The Gamma parameters are determined by the density. *)
Lemma gamma_identifiable a b a' b' : 0 < a -> 0 < b -> 0 < a' -> 0 < b' ->
  (forall t, 0 < t -> pdf (S_gamma_scale a (1 / b)) t = pdf (S_gamma_scale a' (1 / b')) t) -> a = a' /\ b = b'.
Proof.
  intros Ha Hb Ha' Hb' H.
  assert (HG : 0 < Gamma_fun a) by now apply Gamma_fun_pos. assert (HG' : 0 < Gamma_fun a') by now apply Gamma_fun_pos.
  set (c := a * ln b - ln (Gamma_fun a)). set (c' := a' * ln b' - ln (Gamma_fun a')).
  assert (HL : forall t, 0 < t -> c + (a - 1) * ln t - b * t = c' + (a' - 1) * ln t - b' * t).
  { intros t Ht. specialize (H t Ht). rewrite !gamma_pdf in H by auto.
    assert (E : forall x y, 0 < x -> 0 < y -> 0 < Gamma_fun x ->
       Rpower y x / Gamma_fun x * (Rpower t (x - 1) * exp (- (y * t))) = exp (x * ln y - ln (Gamma_fun x) + (x - 1) * ln t - y * t)).
    { intros x y Hx Hy Hg. unfold Rpower. unfold Rminus. rewrite !exp_plus. rewrite (exp_Ropp (ln (Gamma_fun x))), exp_ln by auto. unfold Rdiv. ring. }
    rewrite (E a b), (E a' b') in H by auto. apply exp_inv in H. exact H. }
  pose proof (HL 1 ltac:(lra)) as H1. pose proof (HL 2 ltac:(lra)) as H2. pose proof (HL 4 ltac:(lra)) as H4.
  rewrite ln_1 in H1. replace 4 with (2 * 2) in H4 by ring. rewrite ln_mult in H4 by lra.
  assert (Hln : 0 < ln 2). { rewrite <- ln_1. apply ln_increasing; lra. }
  assert (HB : b = b') by lra. split; auto. subst b'. assert ((a - a') * ln 2 = 0) by lra.
  apply Rmult_integral in H0. lra.
Qed.

Lemma exponential_gamma_bayes_iff (prior : Gamma R) (data : list R) :
  0 < Gamma_alpha prior -> 0 < Gamma_beta prior -> Forall (fun x => 0 <= x) data ->
  (bayes_posterior Fpos0 Finf (pdf (Gamma_dist prior))
    (likelihood (fun rate x => pdf (S_expon_scale (/ rate)) x) data)
    (pdf (Gamma_dist (exponential_gamma (sumR data) (INR (length data)) prior)))
   <-> sumR data = INR (length data)).
Proof.
  intros Ha Hb Hd. pose proof (exponential_rate_bayes prior data Ha Hb Hd) as Ht. split.
  - intros Hl. pose proof (bayes_unique _ _ _ ends_pos _ _ _ _ Hl Ht) as E.
    destruct prior as [a b]. simpl in Ha, Hb. pose proof (sumR_nonneg _ Hd). pose proof (pos_INR (length data)).
    assert (a + sumR data = a + INR (length data) /\ b + INR (length data) = b + sumR data) as [E1 _].
    { apply gamma_identifiable; try lra. intros t _. apply E. }
    lra.
  - intros E. rewrite E in *. exact Ht.
Qed.

Lemma exponential_gamma_predictive_iff (d : Gamma R) : 0 < Gamma_alpha d -> 0 < Gamma_beta d ->
  ((forall x, 0 <= x -> marginal Fpos0 Finf (pdf (Gamma_dist d)) (fun rate => pdf (S_expon_scale (/ rate)) x)
     (pdf (Lomax_dist (exponential_gamma_predictive d)) x)) <-> Gamma_alpha d = Gamma_beta d).
Proof.
  destruct d as [a b]. simpl Gamma_alpha. simpl Gamma_beta. intros Ha Hb. split.
  - intros H. specialize (H 0 (Rle_refl 0)). pose proof (exponential_lomax_marginal a b 0 Ha Hb (Rle_refl 0)) as Ht.
    pose proof (is_RInt_gen_unique_on _ _ _ ends_pos _ _ _ H Ht) as E. cbv [Lomax_dist exponential_gamma_predictive Lomax_alpha Lomax_lam Gamma_alpha Gamma_beta] in E.
    rewrite !lomax_pdf in E by lra. rewrite !Rplus_0_r in E. rewrite !Rpower_succ in E by auto.
    pose proof (Rpower_pos a b). pose proof (Rpower_pos b a).
    replace (b * Rpower a b / (Rpower a b * a)) with (b / a) in E by (field; lra).
    replace (a * Rpower b a / (Rpower b a * b)) with (a / b) in E by (field; lra).
    assert (b * b = a * a). { apply Rmult_eq_compat_r with (r := a * b) in E. replace (b / a * (a * b)) with (b * b) in E by (field; lra). replace (a / b * (a * b)) with (a * a) in E by (field; lra). exact E. }
    nra.
  - intros -> x Hx. now apply exponential_lomax_marginal.
Qed.

(** The library's beta-geometric mass is too small at every outcome. *)
Lemma geometric_beta_predictive_too_small (d : Beta R) (one_start : bool) (k : nat) m :
  0 < Beta_alpha d -> 0 < Beta_beta d ->
  let z := (Z.of_nat k + (if one_start then 1 else 0))%Z in
  marginal Fpos0 Fone (pdf (Beta_dist d)) (fun p => pmf (Geometric_dist (mkGeometric p one_start)) z) m ->
  pmf (BetaGeometric_dist (geometric_beta_predictive d one_start)) z =
    m * ((Beta_beta d + INR k) / (Beta_alpha d + Beta_beta d + INR k + 1)).
Proof.
  intros Ha Hb z Hm. pose proof (geometric_marginal d one_start k Ha Hb) as Ht. fold z in Ht.
  assert (m = Beta_fun (Beta_alpha d + 1) (INR k + Beta_beta d) / Beta_fun (Beta_alpha d) (Beta_beta d)).
  { exact (is_RInt_gen_unique_on _ _ _ E01 _ _ _ Hm Ht). }
  subst m. destruct d as [a b]. cbv [Beta_alpha Beta_beta] in *.
  pose proof (pos_INR k). pose proof (Beta_fun_pos a b Ha Hb).
  assert (E : Beta_fun (a + 1) (INR k + b + 1) = Beta_fun (a + 1) (INR k + b) * ((INR k + b) / (a + 1 + (INR k + b)))) by (apply Beta_fun_succ_r; lra).
  unfold z. destruct one_start; cbv [BetaGeometric_dist geometric_beta_predictive BetaGeometric_alpha BetaGeometric_beta BetaGeometric_one_start Beta_alpha Beta_beta pmf beta_geometric_pmf nadd ndiv nlit NumR];
  rewrite plus_IZR, <- INR_IZR_INZ.
  - replace (INR k + 1 + b) with (INR k + b + 1) by ring. rewrite E. field. lra.
  - replace (INR k + 0 + 1 + b) with (INR k + b + 1) by ring. rewrite E. field. lra.
Qed.

(** (1 + c) ^ n = 1 + n c only for n = 1. *)
Lemma bernoulli_strict n c : 0 < n -> 0 < c -> n * ln (1 + c) = ln (1 + n * c) -> n = 1.
Proof.
  intros Hn Hc H.
  destruct (MVT_cor2 (fun t => n * ln (1 + t) - ln (1 + n * t)) (fun t => n / (1 + t) - n / (1 + n * t)) 0 c Hc) as (x & E & Hx).
  - intros x Hx. apply is_derive_Reals. assert (0 <= n * x) by nra. auto_derive. lra. unfold Rdiv. ring.
  - rewrite Rmult_0_r, Rplus_0_r, ln_1, H in E.
    assert (Hnx : 0 < n * x) by nra.
    replace (n / (1 + x) - n / (1 + n * x)) with (n * (n - 1) * x / ((1 + x) * (1 + n * x))) in E by (field; lra).
    assert (Hp : 0 < (1 + x) * (1 + n * x)) by nra.
    assert (E' : n * (n - 1) * x * c = 0).
    { assert (E2 : n * (n - 1) * x / ((1 + x) * (1 + n * x)) * (c - 0) * ((1 + x) * (1 + n * x)) = 0) by (rewrite <- E; ring).
      replace (n * (n - 1) * x / ((1 + x) * (1 + n * x)) * (c - 0) * ((1 + x) * (1 + n * x))) with (n * (n - 1) * x * c) in E2 by (field; lra). exact E2. }
    apply Rmult_integral in E'. destruct E' as [E'|]; [|lra]. apply Rmult_integral in E'. destruct E' as [E'|]; [|lra].
    apply Rmult_integral in E'. lra.
Qed.

Lemma poisson_gamma_predictive_iff (d : Gamma R) (n : R) : 0 < Gamma_alpha d -> 0 < Gamma_beta d -> 0 < n ->
  ((forall k : nat, marginal Fpos0 Finf (pdf (Gamma_dist d)) (fun lam => pmf (Poisson_dist (mkPoisson (n * lam))) (Z.of_nat k))
     (pmf (NegativeBinomial_dist (poisson_gamma_predictive d n)) (Z.of_nat k))) <-> n = 1).
Proof.
  destruct d as [a b]. simpl Gamma_alpha. simpl Gamma_beta. intros Ha Hb Hn. split.
  - intros H. specialize (H 0%nat). pose proof (poisson_gamma_marginal a b n 0 Ha Hb Hn) as Ht.
    pose proof (is_RInt_gen_unique_on _ _ _ ends_pos _ _ _ H Ht) as E.
    cbv [NegativeBinomial_dist poisson_gamma_predictive NegativeBinomial_n NegativeBinomial_p Gamma_alpha Gamma_beta nmul nadd ndiv nlit NumR] in E.
    rewrite !nbinom_pmf in E. simpl rising in E. simpl fact in E. rewrite !pow_O in E. simpl INR in E.
    unfold Rpower in E. assert (E2 : exp (n * a * ln (b / (1 + b))) = exp (a * ln (b / (n + b)))) by lra. apply exp_inv in E2.
    apply (bernoulli_strict n (1 / b) Hn). apply Rdiv_lt_0_compat; lra.
    assert (L : forall y, 0 < y -> ln (b / (y + b)) = - ln (1 + y * (1 / b))).
    { intros y Hy. rewrite <- ln_Rinv. 2: { assert (0 < y * (1 / b)). { apply Rmult_lt_0_compat; auto. apply Rdiv_lt_0_compat; lra. } lra. } f_equal. field. lra. }
    rewrite (L 1), (L n) in E2 by lra. rewrite Rmult_1_l in E2.
    apply Rmult_eq_reg_l with a; lra.
  - intros -> k. pose proof (poisson_gamma_predictive_marginal (mkGamma a b) k Ha Hb) as H.
    revert H. apply (is_RInt_gen_ext_on _ _ _ ends_pos). intros t _. now rewrite Rmult_1_l.
Qed.

(** Densities: exactly when they are the documented ones. *)
Lemma Exponential_dist_rate_iff lam : 0 < lam ->
  ((forall x, 0 <= x -> pdf (Exponential_dist (mkExponential lam)) x = lam * exp (- (lam * x))) <-> lam = 1).
Proof.
  intros Hl. split.
  - intros H. specialize (H 0 (Rle_refl 0)). rewrite Exponential_dist_is_scale in H by (simpl; lra). simpl in H.
    replace (- (0 / lam)) with 0 in H by (field; lra). replace (- (lam * 0)) with 0 in H by ring. rewrite exp_0 in H.
    assert (lam * lam = 1). { apply Rmult_eq_compat_r with (r := lam) in H. rewrite Rmult_1_r, Rinv_l in H by lra. lra. } nra.
  - intros -> x Hx. rewrite Exponential_dist_is_scale by (simpl; lra). simpl. rewrite Rinv_1. do 3 f_equal. field.
Qed.

Lemma Uniform_dist_iff low high : low < high -> 0 < high ->
  ((forall x, pdf (Uniform_dist (mkUniform low high)) x = if Rle_dec low x then if Rle_dec x high then / (high - low) else 0 else 0)
   <-> low = 0).
Proof.
  intros Hlh Hh. split.
  - intros H. specialize (H low). rewrite Uniform_dist_support in H by auto. simpl in H.
    destruct (Rle_dec low low); [|lra]. destruct (Rle_dec low (low + high)); [|lra]. destruct (Rle_dec low high); [|lra].
    apply (f_equal Rinv) in H. rewrite !Rinv_inv in H. lra.
  - intros -> x. rewrite Uniform_dist_support by auto. simpl. rewrite Rplus_0_l, Rminus_0_r. reflexivity.
Qed.

Lemma lognorm_pdf s l x : 
  pdf (S_lognorm_loc s l) x = if Rlt_dec l x then / (s * (x - l) * sqrt (2 * PI)) * exp (- (ln (x - l)) ^ 2 / (2 * s ^ 2)) else 0.
Proof.
  unfold pdf, locscale, std_lognorm, ltb. rewrite !Rdiv_1. destruct (Rlt_dec 0 (x - l)), (Rlt_dec l x); try lra; reflexivity.
Qed.

Lemma LogNormal_dist_iff mu sigma : 0 < sigma ->
  ((forall x, pdf (LogNormal_dist (mkLogNormal mu sigma)) x = if Rlt_dec 0 x then lognormal_pdf mu (sigma ^ 2) x else 0) <-> mu = 0).
Proof.
  intros Hs. assert (Hpi : 0 < sqrt (2 * PI)) by apply sqrt_2pi_pos. split.
  - intros H. specialize (H (mu / 2)). unfold LogNormal_dist in H. simpl LogNormal_sigma in H. simpl LogNormal_mu in H. rewrite lognorm_pdf in H.
    destruct (Rtotal_order mu 0) as [Hm|[Hm|Hm]]; auto.
    + destruct (Rlt_dec mu (mu / 2)); [|lra]. destruct (Rlt_dec 0 (mu / 2)); [lra|].
      assert (0 < / (sigma * (mu / 2 - mu) * sqrt (2 * PI)) * exp (- (ln (mu / 2 - mu)) ^ 2 / (2 * sigma ^ 2))).
      { apply Rmult_lt_0_compat. apply Rinv_0_lt_compat. apply Rmult_lt_0_compat; auto. nra. apply exp_pos. } lra.
    + destruct (Rlt_dec mu (mu / 2)); [lra|]. destruct (Rlt_dec 0 (mu / 2)); [|lra].
      assert (0 < lognormal_pdf mu (sigma ^ 2) (mu / 2)).
      { unfold lognormal_pdf. apply Rmult_lt_0_compat. apply Rinv_0_lt_compat. apply Rmult_lt_0_compat. lra. apply sqrt_lt_R0.
        apply Rmult_lt_0_compat. pose proof PI_RGT_0. lra. nra. apply exp_pos. } lra.
  - intros -> x. unfold LogNormal_dist. simpl LogNormal_sigma. simpl LogNormal_mu. rewrite lognorm_pdf. destruct (Rlt_dec 0 x); auto.
    unfold lognormal_pdf. rewrite !Rminus_0_r. f_equal. f_equal.
    replace (sqrt (2 * PI * sigma ^ 2)) with (sqrt (2 * PI) * sigma). ring.
    rewrite (sqrt_mult_alt (2 * PI) (sigma ^ 2)), sqrt_pow2 by (pose proof PI_RGT_0; lra). reflexivity.
Qed.

(** hypergeometric_beta_binomial is wrong for every sample of at least one item. *)
Lemma betabinom_pmf_pos (N k : nat) a b : 0 < a -> 0 < b -> (k <= N)%nat -> 0 < pmf (S_betabinom (INR N) a b) (Z.of_nat k).
Proof.
  intros Ha Hb Hk. rewrite betabinom_pmf by auto. pose proof (choose_pos N k Hk).
  assert (0 <= INR N - INR k) by (apply le_INR in Hk; lra). pose proof (pos_INR k).
  pose proof (Beta_fun_pos a b Ha Hb). pose proof (Beta_fun_pos (INR k + a) (INR N - INR k + b) ltac:(lra) ltac:(lra)).
  apply Rdiv_lt_0_compat; auto. apply Rmult_lt_0_compat; auto.
Qed.

Lemma hypergeometric_never_bayes (N n x : nat) (a b : R) : 0 < a -> 0 < b -> (1 <= n <= N)%nat -> (x <= n)%nat ->
  ~ proportional (fun m => m <= N)%nat
    (fun m => pmf (BetaBinomial_dist (hypergeometric_beta_binomial (INR x) (INR n) (mkBetaBinomial (INR N) a b))) (Z.of_nat m))
    (fun m => pmf (BetaBinomial_dist (mkBetaBinomial (INR N) a b)) (Z.of_nat m)
            * pmf (Hypergeometric_dist (mkHypergeometric (INR N) (INR m) (INR n))) (Z.of_nat x)).
Proof.
  intros Ha Hb Hn Hx (K & HK & H).
  assert (HxN : INR x <= INR N) by (apply le_INR; lia). pose proof (pos_INR x).
  assert (Hpos : forall m, (m <= N)%nat -> 0 < pmf (BetaBinomial_dist (hypergeometric_beta_binomial (INR x) (INR n) (mkBetaBinomial (INR N) a b))) (Z.of_nat m)).
  { intros m Hm. apply betabinom_pmf_pos; auto; simpl; lra. }
  assert (exists m, (m <= N)%nat /\ pmf (Hypergeometric_dist (mkHypergeometric (INR N) (INR m) (INR n))) (Z.of_nat x) = 0) as (m & Hm & E).
  { unfold Hypergeometric_dist, pmf. simpl Hypergeometric_N. simpl Hypergeometric_k. simpl Hypergeometric_n. rewrite Nat2Z.id.
    destruct x.
    - exists N. split; auto. rewrite !Rnat_INR. rewrite Nat.sub_0_r, Nat.sub_diag.
      replace (Nat.leb n 0) with false. now rewrite !Bool.andb_false_r. symmetry. apply Nat.leb_gt. lia.
    - exists 0%nat. split. lia. rewrite !Rnat_INR. replace (Nat.leb (S x) 0) with false by reflexivity.
      rewrite Bool.andb_false_r. reflexivity. }
  specialize (H m Hm). rewrite E in H. specialize (Hpos m Hm). rewrite H in Hpos. lra.
Qed.

(** C01: a single trial. *)
Lemma bernoulli_beta_bayes (x : nat) (prior : Beta R) : 0 < Beta_alpha prior -> 0 < Beta_beta prior -> (x <= 1)%nat ->
  bernoulli_beta (INR x) prior = binomial_beta 1 (INR x) prior /\
  bayes_posterior Fpos0 Fone (pdf (Beta_dist prior))
    (fun p => if Nat.eqb x 1 then p else 1 - p) (pdf (Beta_dist (bernoulli_beta (INR x) prior))).
Proof.
  intros Ha Hb Hx. split. reflexivity.
  assert (HF : Forall (fun o => (snd o <= fst o)%nat) [(1, x)%nat]) by (constructor; [exact Hx|constructor]).
  destruct (binomial_beta_bayes prior [(1, x)%nat] Ha Hb HF) as (ev & H0 & H1 & H2).
  assert (E : forall p, likelihood (fun p o => pmf (Binomial_dist (mkBinomial (INR (fst o)) p)) (Z.of_nat (snd o))) [(1, x)%nat] p = if Nat.eqb x 1 then p else 1 - p).
  { intros p. unfold likelihood. cbn [map fst snd]. unfold prodR. cbn [fold_right]. unfold Binomial_dist, Binomial_n, Binomial_p.
    rewrite binom_pmf by auto. unfold choose.
    destruct x as [|[|x]]; [| |lia]; simpl; field. }
  exists ev. split; [exact H0|]. split.
  - revert H1. apply (is_RInt_gen_ext_on _ _ _ E01). intros t _. now rewrite E.
  - intros t. rewrite <- E. rewrite <- H2. unfold bernoulli_beta. f_equal. f_equal. unfold sumN. cbn [map fst snd fold_right].
    now rewrite !Nat.add_0_r.
Qed.

(** C08 *)
Lemma normal_known_precision_bayes (prior : Normal R) (precision : R) (data : list R) :
  0 < Normal_sigma prior -> 0 < precision ->
  normal_known_precision (sumR data) (INR (length data)) precision prior =
    normal_known_variance (sumR data) (INR (length data)) (/ precision) prior /\
  bayes_posterior Fminf Finf (pdf (Normal_dist prior))
    (likelihood (fun m x => pdf (Normal_dist (mkNormal m (/ sqrt precision))) x) data)
    (pdf (Normal_dist (normal_known_precision (sumR data) (INR (length data)) precision prior))).
Proof.
  intros Hs Hp. assert (E : normal_known_precision (sumR data) (INR (length data)) precision prior =
    normal_known_variance (sumR data) (INR (length data)) (/ precision) prior).
  { unfold normal_known_precision. f_equal. simpl. field. lra. }
  split; auto. rewrite E. rewrite <- sqrt_inv.
  apply normal_known_variance_bayes; auto. now apply Rinv_0_lt_compat.
Qed.

(** C09 *)
Lemma normal_known_mean_routes (s : ScaledInverseChiSquared R) (ig : InverseGamma R) (mu : R) (data : list R) :
  variance_ok (VSICS s) -> variance_ok (VIG ig) ->
  (forall v, pdf (variance_dist (VSICS s)) v = pdf (variance_dist (VIG ig)) v) ->
  forall v,
  pdf (variance_dist (normal_known_mean (sumR data) (sumR (map (fun x => x ^ 2) data)) (INR (length data)) mu (VSICS s))) v =
  pdf (variance_dist (normal_known_mean (sumR data) (sumR (map (fun x => x ^ 2) data)) (INR (length data)) mu (VIG ig))) v.
Proof.
  intros H1 H2 E. apply (bayes_unique _ _ _ ends_pos (pdf (variance_dist (VSICS s))) (likelihood (fun v x => pdf (Normal_dist (mkNormal mu (sqrt v))) x) data)).
  - now apply normal_known_mean_bayes.
  - destruct (normal_known_mean_bayes (VIG ig) mu data H2) as (ev & A & B & C). exists ev. split; auto. split.
    + revert B. apply (is_RInt_gen_ext_on _ _ _ ends_pos). intros t _. now rewrite E.
    + intros t. now rewrite E, C.
Qed.

(** C25 *)
Lemma normal_known_precision_predictive_marginal (d : Normal R) (precision x : R) :
  0 < Normal_sigma d -> 0 < precision ->
  marginal Fminf Finf (pdf (Normal_dist d)) (fun m => pdf (Normal_dist (mkNormal m (/ sqrt precision))) x)
    (pdf (Normal_dist (normal_known_precision_predictive precision d)) x).
Proof.
  intros Hs Hp. unfold normal_known_precision_predictive.
  replace (ndiv (nlit 1) precision) with (/ precision) by (simpl; field; lra).
  rewrite <- sqrt_inv. apply normal_known_variance_predictive_marginal; auto. now apply Rinv_0_lt_compat.
Qed.

(** C27: the two families with the same numbers have the same predictive. *)
Lemma normal_predictive_families {M : Type} mu nu a b :
  normal_predictive (PNIG (M := M) (mkNormalInverseGamma mu a b None (Some nu))) =
  normal_predictive (PNG (M := M) (mkNormalGamma mu nu a b)).
Proof. reflexivity. Qed.

(** numpy's arctan2 exists. *)
Lemma is_arctan2_exists : exists arctan2, is_arctan2 arctan2.
Proof.
  exists (fun y x => let r := sqrt (x ^ 2 + y ^ 2) in if Rle_dec 0 y then acos (x / r) else - acos (x / r)).
  intros y x. cbv zeta. set (r := sqrt (x ^ 2 + y ^ 2)).
  assert (Hr : r ^ 2 = x ^ 2 + y ^ 2) by (apply pow2_sqrt; nra). assert (Hr0 : 0 <= r) by apply sqrt_pos.
  destruct (Req_dec r 0) as [Z|Z].
  - rewrite Z in *. assert (x = 0) by nra. assert (y = 0) by nra. subst. lra.
  - assert (Hx : -1 <= x / r <= 1). { assert (0 < r) by lra. split. apply Rle_div_r; nra. apply Rle_div_l; nra. }
    assert (Hc : cos (acos (x / r)) = x / r) by (apply cos_acos; lra).
    assert (Hs : sin (acos (x / r)) = sqrt (1 - Rsqr (x / r))) by (apply sin_acos; lra).
    assert (Hq : sqrt (1 - Rsqr (x / r)) = Rabs y / r).
    { replace (1 - Rsqr (x / r)) with (Rsqr (y / r)). rewrite sqrt_Rsqr_abs, Rabs_div, (Rabs_right r) by lra. reflexivity.
      unfold Rsqr. apply Rmult_eq_reg_r with (r ^ 2). 2: nra.
      replace (y / r * (y / r) * r ^ 2) with (y ^ 2) by (field; lra). replace ((1 - x / r * (x / r)) * r ^ 2) with (r ^ 2 - x ^ 2) by (field; lra). lra. }
    destruct (Rle_dec 0 y).
    + rewrite Hc, Hs, Hq, Rabs_right by lra. split; field; lra.
    + rewrite cos_neg, sin_neg, Hc, Hs, Hq, Rabs_left by lra. split; field; lra.
Qed.

(** C22: the two start conventions. *)
Lemma beta_geometric_start (d : Beta R) (z : Z) : 0 < Beta_alpha d -> 0 < Beta_beta d -> (-1 <= z)%Z ->
  pmf (BetaGeometric_dist (geometric_beta_predictive d false)) z =
  pmf (BetaGeometric_dist (geometric_beta_predictive d true)) (z + 1).
Proof.
  intros Ha Hb Hz.
  assert (H1 := geometric_beta_predictive_shifted d false z Ha Hb Hz). assert (Hz' : (0 <= z + 1)%Z) by lia.
  assert (H2 := geometric_beta_predictive_shifted d true (z + 1) Ha Hb Hz').
  refine (is_RInt_gen_unique_on _ _ _ E01 _ _ _ H1 _). revert H2. apply (is_RInt_gen_ext_on _ _ _ E01).
  intros p _. f_equal. destruct (Z_of_nat_complete (z + 1) Hz') as [k Hk].
  pose proof (geometric_mass p true k) as G1. pose proof (geometric_mass p false k) as G2.
  rewrite Nat2Z.inj_add in G1, G2. rewrite <- Hk in G1, G2. simpl (Z.of_nat 1) in G1. simpl (Z.of_nat 0) in G2.
  rewrite Z.add_0_r in G2. now rewrite G1, G2.
Qed.
