(** Recovery of the parameters of the set-ups in Model/Scripts.v. *)

From Coq Require Import Reals Lra Lia Psatz ZArith.
From Coquelicot Require Import Coquelicot.
From Verif Require Import Model.Num Model.Py Model.NdArray Model.Dists Model.ScipyDist Model.Models Model.Scripts.
From Verif Require Import Spec.Special Spec.Densities Spec.Bayes Spec.Joint Spec.Moments Spec.Normalised Spec.Limits Spec.Recovery.
From Verif Require Import Analysis.Improper Analysis.RealAux Analysis.GammaBeta Analysis.GammaFacts Analysis.Concentration.
From Verif Require Import Proofs.Pdfs Proofs.Conj Proofs.Predictive Proofs.Convert Proofs.Normalised Proofs.Moments
  Proofs.Limits Proofs.LimitModels Proofs.LimitNormal Proofs.LimitRefuted.
From Coq Require Import List.
Import ListNotations.
Open Scope R_scope.

(** ** expectations under the true distributions *)
Lemma shift_series (a : nat -> R) (l : R) : a 0%nat = 0 -> is_series (fun k => a (S k)) l -> is_series a l.
Proof.
  intros H0 H. apply (is_series_decr_1 (V:=R_NormedModule)). rewrite H0. change (is_series (fun k => a (S k)) (l + - 0)).
  rewrite Ropp_0, Rplus_0_r. exact H.
Qed.

Lemma scaled_series (a b : nat -> R) c : (forall k, a k = c * b k) -> is_series b 1 -> is_series a c.
Proof.
  intros E H. pose proof (is_series_scal (V:=R_NormedModule) c b 1 H) as Q.
  change (is_series (fun k => c * b k) (c * 1)) in Q. rewrite Rmult_1_r in Q.
  revert Q. apply is_series_ext. intros k. now rewrite E.
Qed.

Lemma poisson_expectation lam : count_expectation (pmf (Poisson_dist (mkPoisson lam))) (fun x => x) lam.
Proof.
  unfold count_expectation, Poisson_dist. cbn [Poisson_lam]. apply shift_series; [simpl INR; ring|].
  apply (scaled_series _ (fun k => pmf (S_poisson lam) (Z.of_nat k))); [|apply poisson_series].
  intros k. rewrite !poisson_pmf. rewrite fact_simpl, mult_INR. assert (0 < INR (S k)) by (apply lt_0_INR; lia). pose proof (INR_fact_lt_0 k).
  simpl pow. field. lra.
Qed.

Lemma rising_shift a k : rising a (S k) = a * rising (a + 1) k.
Proof.
  induction k; [simpl; ring|]. change (rising a (S k) * (a + INR (S k)) = a * (rising (a + 1) k * (a + 1 + INR k))).
  rewrite IHk, S_INR. ring.
Qed.

Lemma nbinom_expectation r p : 0 < r -> 0 < p <= 1 ->
  count_expectation (pmf (NegativeBinomial_dist (mkNegativeBinomial r p))) (fun x => x) (r * (1 - p) / p).
Proof.
  intros Hr Hp. unfold count_expectation, NegativeBinomial_dist. cbn [NegativeBinomial_n NegativeBinomial_p]. apply shift_series; [simpl INR; ring|].
  apply (scaled_series _ (fun k => pmf (S_nbinom (r + 1) p) (Z.of_nat k))); [|apply nbinom_series; lra].
  intros k. rewrite !nbinom_pmf. rewrite fact_simpl, mult_INR, rising_shift, Rpower_plus, Rpower_1 by lra.
  assert (0 < INR (S k)) by (apply lt_0_INR; lia). pose proof (INR_fact_lt_0 k). simpl pow. field. lra.
Qed.

Lemma rising_2 k : rising 2 k = INR (fact (S k)).
Proof.
  induction k; [simpl; lra|]. change (rising 2 k * (2 + INR k) = INR (fact (S (S k)))). rewrite IHk, (fact_simpl (S k)), mult_INR, !S_INR. ring.
Qed.

Lemma geometric_expectation p : 0 < p <= 1 -> count_expectation (pmf (Geometric_dist (mkGeometric p true))) (fun x => x) (/ p).
Proof.
  intros Hp. unfold count_expectation. apply shift_series; [simpl INR; ring|].
  apply (scaled_series _ (fun k => pmf (S_nbinom 2 p) (Z.of_nat k))); [|apply nbinom_series; lra].
  intros k. assert (E : pmf (Geometric_dist (mkGeometric p true)) (Z.of_nat (S k) + 0) = (1 - p) ^ (S k - 1) * p) by (apply (geom_pmf p 0%Z); lia).
  rewrite Z.add_0_r in E. rewrite E, nbinom_pmf, rising_2, fact_simpl, mult_INR.
  replace (S k - 1)%nat with k by lia. pose proof (INR_fact_lt_0 k).
  replace (Rpower p 2) with (p ^ 2) by (rewrite <- Rpower_pow by lra; f_equal; simpl; lra). field. lra.
Qed.

Lemma binom_out n p k : (n < k)%nat -> pmf (S_binom (INR n) p) (Z.of_nat k) = 0.
Proof.
  intros H. unfold pmf. rewrite Nat2Z.id, Rnat_INR. replace (k <=? n)%nat with false by (symmetry; apply Nat.leb_gt; lia). now rewrite Bool.andb_false_r.
Qed.

Lemma binomial_expectation n p : 0 <= p <= 1 -> count_expectation (pmf (Binomial_dist (mkBinomial (INR n) p))) (fun x => x) (INR n * p).
Proof.
  intros Hp. unfold count_expectation, Binomial_dist. cbn [Binomial_n Binomial_p]. apply shift_series; [simpl INR; ring|].
  destruct n as [|n].
  { replace (INR 0 * p) with 0 by (simpl; ring). apply (is_series_ext (fun _ => 0)).
    - intros k. rewrite (binom_out 0) by lia. now rewrite Rmult_0_r.
    - apply (finite_series _ 0); [auto|]. reflexivity. }
  apply (scaled_series _ (fun k => pmf (S_binom (INR n) p) (Z.of_nat k))).
  - intros k. destruct (Compare_dec.le_lt_dec k n) as [Hk|Hk].
    + rewrite !binom_pmf, !choose_C by lia. replace (S n - S k)%nat with (n - k)%nat by lia.
      assert (E : INR (S k) * Binomial.C (S n) (S k) = INR (S n) * Binomial.C n k).
      { unfold Binomial.C. rewrite (fact_simpl n), (fact_simpl k), !mult_INR. replace (S n - S k)%nat with (n - k)%nat by lia.
        pose proof (INR_fact_neq_0 k). pose proof (INR_fact_neq_0 (n - k)). assert (INR (S k) <> 0) by (apply not_0_INR; lia). field. auto. }
      transitivity (INR (S k) * Binomial.C (S n) (S k) * (p ^ S k * (1 - p) ^ (n - k))); [ring|]. rewrite E. simpl pow. ring.
    + rewrite !binom_out by lia. ring.
  - exact (finite_series _ n 1 (fun k Hk => binom_out n p k Hk) (binom_total n p)).
Qed.

Lemma normal_expectation m s : 0 < s -> real_expectation Fminf Finf (pdf (Normal_dist (mkNormal m s))) (fun x => x) m.
Proof. exact (norm_mean m s). Qed.

Lemma normal_density_one m s : 0 < s -> is_RInt_gen (pdf (Normal_dist (mkNormal m s))) Fminf Finf 1.
Proof. intros H. exact (proj2 (proj2 (Normal_density (mkNormal m s) H))). Qed.

Lemma normal_second m s : 0 < s -> real_expectation Fminf Finf (pdf (Normal_dist (mkNormal m s))) (fun x => x ^ 2) (s ^ 2 + m ^ 2).
Proof.
  intros Hs. pose proof (variance_about _ _ _ ends_line _ m (s ^ 2) 0 (normal_density_one m s Hs) (norm_mean m s Hs) (norm_variance m s Hs)) as Q.
  replace (s ^ 2 + m ^ 2) with (s ^ 2 + (m - 0) ^ 2) by ring. revert Q. apply (is_RInt_gen_ext_on _ _ _ ends_line). intros x _. now rewrite Rminus_0_r.
Qed.

Lemma exponential_expectation lam : 0 < lam -> real_expectation Fpos0 Finf (pdf (Exponential_dist (mkExponential lam))) (fun x => x) lam.
Proof.
  intros Hl. assert (Hi : 0 < / lam) by now apply Rinv_0_lt_compat.
  pose proof (gamma_mean 1 (/ lam) Rlt_0_1 Hi) as Q. unfold is_mean in Q. apply int_value with (1 / / lam); [field; lra|].
  revert Q. apply (is_RInt_gen_ext_on _ _ _ ends_pos). intros x Hx. rewrite gamma_pdf by assumption. unfold Exponential_dist. cbn [Exponential_lam].
  rewrite expon_pdf by (auto; lra). rewrite Gamma_fun_1. replace (1 - 1) with 0 by ring. rewrite Rpower_O, Rpower_1 by assumption.
  replace (/ lam * x) with (x / lam) by (field; lra). field. lra.
Qed.

Lemma inverse_gamma_expectation a b : 0 < a -> 0 < b -> real_expectation Fpos0 Finf (pdf (InverseGamma_dist (mkInverseGamma a b))) (fun x => 1 / x) (a / b).
Proof.
  intros Ha Hb.
  pose proof (is_RInt_gen_mult_l Fpos0 Finf _ (a / b) _ (proj2 (proj2 (Normalised.invgamma_density (a + 1) b ltac:(lra) Hb)))) as Q.
  rewrite Rmult_1_r in Q. revert Q. apply (is_RInt_gen_ext_on _ _ _ ends_pos). intros t Ht. unfold InverseGamma_dist. cbn [InverseGamma_alpha InverseGamma_beta].
  replace (1 / t) with (/ t) by (unfold Rdiv; ring). now rewrite invgamma_shift_inv.
Qed.

Lemma weibull_expectation c th : 0 < c -> 0 < th -> real_expectation Fpos0 Finf (pdf (Weibull_dist (mkWeibull c th))) (fun x => Rpower x c) th.
Proof.
  intros Hc Ht. unfold real_expectation.
  apply (is_RInt_gen_ext_on _ _ _ ends_pos (fun x => Rpower x c * (c * Rpower x (c - 1) / th * exp (- (Rpower x c / th))))).
  { intros x Hx. now rewrite (Convert.weibull_density (mkWeibull c th) x Hc Ht Hx). }
  set (G := fun y => - (1) * ((y + th) * exp (- (y / th)))).
  assert (D : forall x, 0 < x -> is_derive (fun x => G (Rpower x c)) x (Rpower x c * (c * Rpower x (c - 1) / th * exp (- (Rpower x c / th))))).
  { intros x Hx. rewrite (Rpower_pred x c) by auto. unfold G.
    assert (DG : forall y, is_derive G y (y / th * exp (- (y / th)))) by (intros y; unfold G; auto_derive; [auto|unfold Rdiv; field; lra]).
    assert (DP : is_derive (fun x => Rpower x c) x (c * (Rpower x c / x))) by (unfold Rpower; auto_derive; [auto|unfold Rdiv; field; lra]).
    pose proof (is_derive_comp G (fun x => Rpower x c) x _ _ (DG _) DP) as Q.
    unfold scal in Q. simpl in Q. unfold mult in Q. simpl in Q.
    match goal with |- is_derive _ _ ?v => match type of Q with is_derive _ _ ?w => replace v with w by (field; lra) end end. exact Q. }
  assert (C : cont_on (fun x => Rpower x c * (c * Rpower x (c - 1) / th * exp (- (Rpower x c / th)))) (fun x => 0 < x)).
  { intros x Hx. apply (ex_derive_continuous (V:=R_NormedModule)). unfold Rpower. auto_derive. auto. }
  apply int_value with (0 - G 0). { unfold G. unfold Rdiv at 1. rewrite Rmult_0_l, Ropp_0, exp_0. ring. }
  apply (is_RInt_gen_FTC _ _ _ ends_pos (fun x => G (Rpower x c))); auto.
  - apply (filterlim_comp _ _ _ (fun x => Rpower x c) G Fpos0 (locally 0)); [now apply filterlim_Rpower_0|].
    apply (ex_derive_continuous (V:=R_NormedModule)). unfold G. auto_derive. auto.
  - apply (filterlim_comp _ _ _ (fun x => Rpower x c) G Finf Finf); [now apply filterlim_Rpower_inf|].
    assert (L : is_lim (fun z => z * exp z) m_infty 0) by exact is_lim_mul_exp_m.
    assert (L1 : is_lim exp m_infty 0) by exact is_lim_exp_m.
    assert (S : is_lim (fun y => - (y / th)) p_infty m_infty).
    { apply (is_lim_ext (fun y => (- / th) * y)); [intros y; field; lra|].
      replace m_infty with (Rbar_mult (- / th) p_infty).
      - apply is_lim_scal_l, is_lim_id.
      - simpl. destruct (Rle_dec 0 (- / th)) as [H|H]; [|reflexivity]. exfalso. pose proof (Rinv_0_lt_compat _ Ht). lra. }
    change (is_lim G p_infty 0).
    apply (is_lim_ext (fun y => th * ((- (y / th)) * exp (- (y / th))) + (- th) * exp (- (y / th)))).
    { intros y. unfold G. field. lra. }
    replace (Finite 0) with (Finite (th * 0 + (- th) * 0)) by (f_equal; ring).
    apply is_lim_plus'.
    + apply (is_lim_scal_l _ th _ 0). apply (is_lim_comp (fun z => z * exp z) (fun y => - (y / th)) p_infty 0 m_infty L S). exists 0. intros y _. discriminate.
    + apply (is_lim_scal_l _ (- th) _ 0). apply (is_lim_comp exp (fun y => - (y / th)) p_infty 0 m_infty L1 S). exists 0. intros y _. discriminate.
Qed.

(** ** the set-ups *)
Lemma len_INR (l : list R) : data_len l = INR (length l).
Proof. unfold data_len. cbn [nlit NumR]. now rewrite <- INR_IZR_INZ. Qed.
Lemma sum_sumR (l : list R) : data_sum l = sumR l.
Proof. reflexivity. Qed.

Lemma sumR_ge (T : R -> R) (c : R) (P : R -> Prop) l : (forall x, P x -> c <= T x) -> Forall P l -> c * INR (length l) <= sumR (map T l).
Proof.
  intros H F. induction F as [|x l Hx F IH]; [simpl; lra|]. simpl map. change (c * INR (S (length l)) <= T x + sumR (map T l)).
  rewrite S_INR. specialize (H x Hx). lra.
Qed.
Lemma sumR_le (T : R -> R) (c : R) (P : R -> Prop) l : (forall x, P x -> T x <= c) -> Forall P l -> sumR (map T l) <= c * INR (length l).
Proof.
  intros H F. induction F as [|x l Hx F IH]; [simpl; lra|]. simpl map. change (T x + sumR (map T l) <= c * INR (S (length l))).
  rewrite S_INR. specialize (H x Hx). lra.
Qed.

Lemma more_pos support data N : ever_more support data -> 0 < INR (length (data N)).
Proof. intros [H _]. destruct (H N) as [Q _]. destruct (data N); [easy|]. apply lt_0_INR. simpl. lia. Qed.
Lemma more_support support data N : ever_more support data -> Forall support (data N).
Proof. intros [H _]. apply H. Qed.

Lemma Forall2_1 {X Y} (P : X -> Y -> Prop) a b : Forall2 P [a] [b] -> P a b.
Proof. intros H. now inversion H. Qed.
Lemma Forall2_2 {X Y} (P : X -> Y -> Prop) a b a' b' : Forall2 P [a; a'] [b; b'] -> P a b /\ P a' b'.
Proof. intros H. inversion H as [|? ? ? ? H1 H2]; subst. inversion H2; subst. auto. Qed.

Lemma averages_id data e : averages_to data (fun x => x) e -> is_lim_seq (fun N => sumR (data N) / INR (length (data N))) e.
Proof. unfold averages_to. apply is_lim_seq_ext. intros N. now rewrite map_id. Qed.

Lemma binomial_recovers (prior : Beta R) (n : nat) (p : R) : 0 < Beta_alpha prior -> 0 < Beta_beta prior -> (0 < n)%nat -> 0 <= p <= 1 ->
  let s := recover_binomial prior (INR n) p in
  recovers (count_expectation (pmf (setup_dist s))) (fun x => 0 <= x <= INR n) [fun x => x]
    Fpos0 Fone unit_interval (fun data => pdf (Beta_dist (setup_posterior s data))) (setup_truth s).
Proof.
  intros Ha Hb Hn Hp. cbn zeta. exists [INR n * p]. split; [constructor; [now apply binomial_expectation|constructor]|].
  intros data Hd Hl. apply Forall2_1, averages_id in Hl. assert (Hn' : 0 < INR n) by now apply lt_0_INR.
  unfold recover_binomial. cbn [setup_posterior setup_truth].
  apply (concentrates_ext _ _ _ E01 _ _ (fun N => pdf (Beta_dist (binomial_beta (INR (length (data N)) * INR n) (sumR (data N)) prior)))).
  { intros N t. now rewrite len_INR, sum_sumR. }
  apply (binomial_beta_concentrates (fun N => INR (length (data N)) * INR n) (fun N => sumR (data N))); auto.
  - intros N. pose proof (pos_INR (length (data N))). nra.
  - apply lim_mult_inf; [exact Hn'|apply Hd].
  - intros N. pose proof (sumR_ge (fun x => x) 0 _ _ (fun x (H : 0 <= x <= INR n) => proj1 H) (more_support _ _ N Hd)) as Q. rewrite map_id in Q. lra.
  - intros N. pose proof (sumR_le (fun x => x) (INR n) _ _ (fun x (H : 0 <= x <= INR n) => proj2 H) (more_support _ _ N Hd)) as Q. rewrite map_id in Q. lra.
  - replace p with (INR n * p * / INR n) by (field; lra).
    apply is_lim_seq_ext with (fun N => sumR (data N) / INR (length (data N)) * / INR n).
    + intros N. pose proof (more_pos _ _ N Hd). field. lra.
    + apply is_lim_seq_mult'; [exact Hl|apply is_lim_seq_const].
Qed.

Lemma sum_nonneg data support N : ever_more support data -> (forall x, support x -> 0 <= x) -> 0 <= sumR (data N).
Proof.
  intros Hd H. pose proof (sumR_ge (fun x => x) 0 _ _ H (more_support _ _ N Hd)) as Q. rewrite map_id in Q. lra.
Qed.

Lemma geometric_recovers (prior : Beta R) (p : R) : 0 < Beta_alpha prior -> 0 < Beta_beta prior -> 0 < p <= 1 ->
  let s := recover_geometric prior p in
  recovers (count_expectation (pmf (setup_dist s))) (fun x => 1 <= x) [fun x => x]
    Fpos0 Fone unit_interval (fun data => pdf (Beta_dist (setup_posterior s data))) (setup_truth s).
Proof.
  intros Ha Hb Hp. cbn zeta. exists [/ p]. split; [constructor; [now apply geometric_expectation|constructor]|].
  intros data Hd Hl. apply Forall2_1, averages_id in Hl. unfold recover_geometric. cbn [setup_posterior setup_truth].
  apply (concentrates_ext _ _ _ E01 _ _ (fun N => pdf (Beta_dist (geometric_beta (sumR (data N)) (INR (length (data N))) prior true)))).
  { intros N t. now rewrite len_INR, sum_sumR. }
  apply (geometric_beta_concentrates (fun N => INR (length (data N))) (fun N => sumR (data N))); auto.
  - intros N. apply pos_INR.
  - apply Hd.
  - intros N. apply (sum_nonneg data _ N Hd). intros x Hx. cbv beta in Hx. lra.
  - intros N. pose proof (sumR_ge (fun x => x) 1 _ _ (fun x (H : 1 <= x) => H) (more_support _ _ N Hd)) as Q. rewrite map_id in Q. lra.
Qed.

Lemma poisson_recovers (prior : Gamma R) (lam : R) : 0 < Gamma_alpha prior -> 0 < Gamma_beta prior ->
  let s := recover_poisson prior lam in
  recovers (count_expectation (pmf (setup_dist s))) (fun x => 0 <= x) [fun x => x]
    Fpos0 Finf positive (fun data => pdf (Gamma_dist (setup_posterior s data))) (setup_truth s).
Proof.
  intros Ha Hb. cbn zeta. exists [lam]. split; [constructor; [now apply poisson_expectation|constructor]|].
  intros data Hd Hl. apply Forall2_1, averages_id in Hl. unfold recover_poisson. cbn [setup_posterior setup_truth].
  apply (concentrates_ext _ _ _ ends_pos _ _ (fun N => pdf (Gamma_dist (poisson_gamma (sumR (data N)) (INR (length (data N))) prior)))).
  { intros N t. now rewrite len_INR, sum_sumR. }
  apply (poisson_gamma_concentrates (fun N => INR (length (data N))) (fun N => sumR (data N))); auto.
  - intros N. apply pos_INR.
  - apply Hd.
  - intros N. now apply (sum_nonneg data _ N Hd).
Qed.

Lemma negative_binomial_recovers (prior : Beta R) (r p : R) : 0 < Beta_alpha prior -> 0 < Beta_beta prior -> 0 < r -> 0 < p <= 1 ->
  let s := recover_negative_binomial prior r p in
  recovers (count_expectation (pmf (setup_dist s))) (fun x => 0 <= x) [fun x => x]
    Fpos0 Fone unit_interval (fun data => pdf (Beta_dist (setup_posterior s data))) (setup_truth s).
Proof.
  intros Ha Hb Hr Hp. cbn zeta. exists [r * (1 - p) / p]. split; [constructor; [now apply nbinom_expectation|constructor]|].
  intros data Hd Hl. apply Forall2_1, averages_id in Hl. unfold recover_negative_binomial. cbn [setup_posterior setup_truth].
  apply (concentrates_ext _ _ _ E01 _ _ (fun N => pdf (Beta_dist (negative_binomial_beta r (INR (length (data N))) (sumR (data N)) prior)))).
  { intros N t. now rewrite len_INR, sum_sumR. }
  apply (negative_binomial_beta_concentrates (fun N => INR (length (data N))) (fun N => sumR (data N))); auto.
  - intros N. apply pos_INR.
  - apply Hd.
  - intros N. now apply (sum_nonneg data _ N Hd).
Qed.

Lemma normal_known_variance_recovers (prior : Normal R) (mu sigma : R) : 0 < Normal_sigma prior -> 0 < sigma ->
  let s := recover_normal_known_variance prior mu sigma in
  recovers (real_expectation Fminf Finf (pdf (setup_dist s))) any_real [fun x => x]
    Fminf Finf any_real (fun data => pdf (Normal_dist (setup_posterior s data))) (setup_truth s).
Proof.
  intros Hp Hs. cbn zeta. exists [mu]. split; [constructor; [now apply normal_expectation|constructor]|].
  intros data Hd Hl. apply Forall2_1, averages_id in Hl. unfold recover_normal_known_variance. cbn [setup_posterior setup_truth nsq NumR].
  apply (concentrates_ext _ _ _ ends_line _ _ (fun N => pdf (Normal_dist (normal_known_variance (sumR (data N)) (INR (length (data N))) (sigma ^ 2) prior)))).
  { intros N t. now rewrite len_INR, sum_sumR. }
  apply (normal_known_variance_concentrates (fun N => INR (length (data N))) (fun N => sumR (data N))); auto.
  - intros N. apply pos_INR.
  - apply Hd.
  - now apply pow_lt.
Qed.

Lemma normal_known_precision_recovers (prior : Normal R) (mu tau : R) : 0 < Normal_sigma prior -> 0 < tau ->
  let s := recover_normal_known_precision prior mu tau in
  recovers (real_expectation Fminf Finf (pdf (setup_dist s))) any_real [fun x => x]
    Fminf Finf any_real (fun data => pdf (Normal_dist (setup_posterior s data))) (setup_truth s).
Proof.
  intros Hp Hs. cbn zeta. exists [mu]. split; [constructor; [|constructor]|].
  { apply normal_expectation. cbn [nsqrt ndiv nlit NumR]. apply sqrt_lt_R0. apply Rdiv_lt_0_compat; lra. }
  intros data Hd Hl. apply Forall2_1, averages_id in Hl. unfold recover_normal_known_precision. cbn [setup_posterior setup_truth].
  apply (concentrates_ext _ _ _ ends_line _ _ (fun N => pdf (Normal_dist (normal_known_precision (sumR (data N)) (INR (length (data N))) tau prior)))).
  { intros N t. now rewrite len_INR, sum_sumR. }
  apply (normal_known_precision_concentrates (fun N => INR (length (data N))) (fun N => sumR (data N))); auto.
  - intros N. apply pos_INR.
  - apply Hd.
Qed.

Lemma sum_centered mu (l : list R) : sumR (map (fun x => x ^ 2) l) - 2 * mu * sumR l + INR (length l) * mu ^ 2 = sumR (map (fun x => (x - mu) ^ 2) l).
Proof.
  induction l as [|x l IH]; [simpl; ring|]. simpl map. change (length (x :: l)) with (S (length l)). rewrite S_INR.
  change (sumR (x :: l)) with (x + sumR l).
  change (x ^ 2 + sumR (map (fun x => x ^ 2) l) - 2 * mu * (x + sumR l) + (INR (length l) + 1) * mu ^ 2 = (x - mu) ^ 2 + sumR (map (fun x => (x - mu) ^ 2) l)).
  rewrite <- IH. ring.
Qed.

Lemma sum_squares_nonneg mu (l : list R) : 0 <= sumR (map (fun x => (x - mu) ^ 2) l).
Proof.
  pose proof (sumR_ge (fun x => (x - mu) ^ 2) 0 (fun _ => True) l (fun x _ => pow2_ge_0 _)) as Q.
  assert (F : Forall (fun _ : R => True) l) by (apply Forall_forall; auto). specialize (Q F). lra.
Qed.

Lemma normal_known_mean_recovers (prior : VariancePrior R) (mu sigma : R) : variance_ok prior -> 0 < sigma ->
  let s := recover_normal_known_mean prior mu sigma in
  recovers (real_expectation Fminf Finf (pdf (setup_dist s))) any_real [(fun x => x); fun x => x ^ 2]
    Fpos0 Finf positive (fun data => pdf (variance_dist (setup_posterior s data))) (setup_truth s).
Proof.
  intros Hp Hs. cbn zeta. exists [mu; sigma ^ 2 + mu ^ 2].
  split; [constructor; [now apply normal_expectation|constructor; [now apply normal_second|constructor]]|].
  intros data Hd Hl. apply Forall2_2 in Hl. destruct Hl as [Hl Hl2]. apply averages_id in Hl. unfold averages_to in Hl2.
  unfold recover_normal_known_mean. cbn [setup_posterior setup_truth nsq NumR].
  apply (concentrates_ext _ _ _ ends_pos _ _ (fun N => pdf (variance_dist (normal_known_mean (sumR (data N)) (sumR (map (fun x => x ^ 2) (data N))) (INR (length (data N))) mu prior)))).
  { intros N t. now rewrite len_INR. }
  apply (normal_known_mean_concentrates (fun N => INR (length (data N))) (fun N => sumR (data N)) (fun N => sumR (map (fun x => x ^ 2) (data N)))); auto.
  - intros N. apply pos_INR.
  - apply Hd.
  - now apply pow_lt.
  - intros N. rewrite sum_centered. apply sum_squares_nonneg.
  - replace (sigma ^ 2) with (sigma ^ 2 + mu ^ 2 - 2 * mu * mu + mu ^ 2) by ring.
    apply is_lim_seq_ext with (fun N => sumR (map (fun x => x ^ 2) (data N)) / INR (length (data N)) - 2 * mu * (sumR (data N) / INR (length (data N))) + mu ^ 2).
    + intros N. pose proof (more_pos _ _ N Hd). field. lra.
    + apply is_lim_seq_plus'; [|apply is_lim_seq_const]. apply is_lim_seq_minus'; [exact Hl2|]. apply is_lim_seq_mult'; [apply is_lim_seq_const|exact Hl].
Qed.

Lemma exponential_recovers (prior : Gamma R) (lam : R) : 0 < Gamma_alpha prior -> 0 < Gamma_beta prior -> 0 < lam ->
  let s := recover_exponential prior lam in
  recovers (real_expectation Fpos0 Finf (pdf (setup_dist s))) positive [fun x => x]
    Fpos0 Finf positive (fun data => pdf (Gamma_dist (setup_posterior s data))) (setup_truth s).
Proof.
  intros Ha Hb Hlam. cbn zeta. exists [lam]. split; [constructor; [now apply exponential_expectation|constructor]|].
  intros data Hd Hl. apply Forall2_1, averages_id in Hl. unfold recover_exponential. cbn [setup_posterior setup_truth].
  apply (concentrates_ext _ _ _ ends_pos _ _ (fun N => pdf (Gamma_dist (exponential_gamma (sumR (data N)) (INR (length (data N))) prior)))).
  { intros N t. now rewrite len_INR, sum_sumR. }
  apply (exponential_gamma_concentrates (fun N => INR (length (data N))) (fun N => sumR (data N))); auto.
  - intros N. apply pos_INR.
  - apply Hd.
  - intros N. apply (sum_nonneg data _ N Hd). unfold positive. intros; lra.
Qed.

Lemma inverse_gamma_known_rate_recovers (prior : Gamma R) (alpha beta : R) : 0 < Gamma_alpha prior -> 0 < Gamma_beta prior -> 0 < alpha -> 0 < beta ->
  let s := recover_inverse_gamma_known_rate prior alpha beta in
  recovers (real_expectation Fpos0 Finf (pdf (setup_dist s))) positive [fun x => 1 / x]
    Fpos0 Finf positive (fun data => pdf (Gamma_dist (setup_posterior s data))) (setup_truth s).
Proof.
  intros Ha Hb Hal Hbe. cbn zeta. exists [alpha / beta]. split; [constructor; [now apply inverse_gamma_expectation|constructor]|].
  intros data Hd Hl. apply Forall2_1 in Hl. unfold recover_inverse_gamma_known_rate. cbn [setup_posterior setup_truth].
  apply (concentrates_ext _ _ _ ends_pos _ _ (fun N => pdf (Gamma_dist (inverse_gamma_known_rate (sumR (map (fun x => 1 / x) (data N))) (INR (length (data N))) alpha prior)))).
  { intros N t. now rewrite len_INR. }
  apply (inverse_gamma_known_rate_concentrates (fun N => INR (length (data N))) (fun N => sumR (map (fun x => 1 / x) (data N)))); auto.
  - intros N. apply pos_INR.
  - apply Hd.
  - intros N. pose proof (sumR_ge (fun x => 1 / x) 0 positive (data N)) as Q. rewrite Rmult_0_l in Q. apply Q; [|now apply (more_support _ _ N Hd)].
    intros x Hx. left. apply Rdiv_lt_0_compat; [lra|exact Hx].
Qed.

Lemma weibull_recovers (prior : InverseGamma R) (beta theta : R) : 0 < InverseGamma_alpha prior -> 0 < InverseGamma_beta prior -> 0 < beta -> 0 < theta ->
  let s := recover_weibull prior beta theta in
  recovers (real_expectation Fpos0 Finf (pdf (setup_dist s))) positive [fun x => Rpower x beta]
    Fpos0 Finf positive (fun data => pdf (InverseGamma_dist (setup_posterior s data))) (setup_truth s).
Proof.
  intros Ha Hb Hbe Hth. cbn zeta. exists [theta]. split; [constructor; [now apply weibull_expectation|constructor]|].
  intros data Hd Hl. apply Forall2_1 in Hl. unfold recover_weibull. cbn [setup_posterior setup_truth].
  apply (concentrates_ext _ _ _ ends_pos _ _ (fun N => pdf (InverseGamma_dist (weibull_inverse_gamma_known_shape (INR (length (data N))) (sumR (map (fun x => Rpower x beta) (data N))) prior)))).
  { intros N t. now rewrite len_INR. }
  apply (weibull_concentrates (fun N => INR (length (data N))) (fun N => sumR (map (fun x => Rpower x beta) (data N)))); auto.
  - intros N. apply pos_INR.
  - apply Hd.
  - intros N. pose proof (sumR_ge (fun x => Rpower x beta) 0 positive (data N)) as Q. rewrite Rmult_0_l in Q. apply Q; [|now apply (more_support _ _ N Hd)].
    intros x Hx. left. apply Rpower_pos.
Qed.

Lemma fold_max_le top l : 0 <= top -> Forall (fun x => x <= top) l -> fold_right Rmax 0 l <= top.
Proof. intros H F. induction F; simpl; [exact H|]. now apply Rmax_lub. Qed.
Lemma fold_max_gt c l : Exists (fun x => c < x) l -> c < fold_right Rmax 0 l.
Proof. intros H. induction H; simpl; eapply Rlt_le_trans; [eassumption|apply Rmax_l|eassumption|apply Rmax_r]. Qed.

Lemma uniform_recovers (prior : Pareto R) (theta : R) data : 0 < Pareto_x_m prior -> 0 < Pareto_alpha prior -> Pareto_x_m prior <= theta ->
  let s := recover_uniform Rmax prior theta in
  ever_more (fun x => 0 < pdf (setup_dist s) x) data -> approaches theta data ->
  concentrates Fpos0 Finf positive (fun N => pdf (Pareto_dist (setup_posterior s (data N)))) (setup_truth s).
Proof.
  intros Hm Ha Hth. cbn zeta. unfold recover_uniform. cbn [setup_posterior setup_truth setup_dist]. intros Hd Hap.
  apply (concentrates_ext _ _ _ ends_pos _ _ (fun N => pdf (Pareto_dist (uniform_pareto Rmax (fold_right Rmax 0 (data N)) (INR (length (data N))) prior)))).
  { intros N t. now rewrite len_INR. }
  apply (uniform_pareto_concentrates (fun N => INR (length (data N))) (fun N => fold_right Rmax 0 (data N))); auto.
  - intros N. apply pos_INR.
  - apply Hd.
  - apply is_lim_seq_spec. intros eps. destruct (Hap (theta - eps)) as (K & HK). { pose proof (cond_pos eps). lra. }
    exists K. intros N HN. pose proof (fold_max_gt _ _ (HK N HN)). apply Rabs_def1; [|lra].
    assert (fold_right Rmax 0 (data N) <= theta); [|pose proof (cond_pos eps); lra].
    apply fold_max_le; [lra|]. pose proof (more_support _ _ N Hd) as F. revert F. apply Forall_impl. intros x Hx.
    destruct (Rle_dec x theta) as [|Q]; [assumption|]. exfalso. unfold Uniform_dist in Hx. cbn [Uniform_low Uniform_high nlit NumR] in Hx.
    assert (Hz : pdf (S_uniform 0 theta) x = 0); [|lra]. simpl. unfold locscale, std_uniform. rewrite Rminus_0_r.
    assert (1 < x / theta). { apply (Rmult_lt_reg_r theta); [lra|]. unfold Rdiv. rewrite Rmult_assoc, Rinv_l by lra. lra. }
    assert (Hf : leb (x / theta) 1 = false) by (apply leb_false; lra). rewrite Hf, Bool.andb_false_r. unfold Rif. unfold Rdiv. ring.
Qed.

Lemma normal_gamma_recovers (prior : NormalGamma R) (mu tau : R) : 0 < NormalGamma_lam prior -> 0 < NormalGamma_alpha prior -> 0 < NormalGamma_beta prior -> 0 < tau ->
  let s := recover_normal_gamma prior mu tau in
  exists post, (forall data, data <> [] -> setup_posterior s data = Ok (post data)) /\
  recovers (real_expectation Fminf Finf (pdf (setup_dist s))) any_real [(fun x => x); fun x => x ^ 2]
    Fpos0 Finf positive (fun data => pdf (Gamma_dist (post data))) (setup_truth s).
Proof.
  destruct prior as [m l a b]. cbn [NormalGamma_lam NormalGamma_alpha NormalGamma_beta]. intros Hl Ha Hb Ht. cbn zeta.
  set (n := fun data : list R => INR (length data)). set (x := fun data : list R => sumR data). set (x2 := fun data : list R => sumR (map (fun x => x ^ 2) data)).
  assert (Hi : 0 < 1 / tau) by (apply Rdiv_lt_0_compat; lra). assert (Hs : 0 < sqrt (1 / tau)) by now apply sqrt_lt_R0.
  set (B := fun data => b + / 2 * ((m ^ 2 * l + x2 data) - ((l * m + n data * (x data / n data)) / (l + n data)) ^ 2 * (l + n data))).
  exists (fun data => mkGamma (a + n data / 2) (B data)). split.
  { intros data _. unfold recover_normal_gamma. cbn [setup_posterior]. rewrite len_INR. reflexivity. }
  unfold recover_normal_gamma. cbn [setup_truth setup_dist nsqrt ndiv nlit NumR].
  exists [mu; (sqrt (1 / tau)) ^ 2 + mu ^ 2]. split; [constructor; [now apply normal_expectation|constructor; [now apply normal_second|constructor]]|].
  intros data Hd HL. apply Forall2_2 in HL. destruct HL as [H1 H2]. apply averages_id in H1. unfold averages_to in H2.
  rewrite pow2_sqrt in H2 by lra.
  assert (Np : forall N, 0 < n (data N)) by (intros N; exact (more_pos _ _ N Hd)).
  assert (Cs : forall N, x (data N) ^ 2 <= n (data N) * x2 (data N)).
  { intros N. pose proof (sum_squares_nonneg (x (data N) / n (data N)) (data N)) as Q. rewrite <- sum_centered in Q. fold (n (data N)) (x (data N)) (x2 (data N)) in Q.
    specialize (Np N). apply (Rmult_le_compat_l (n (data N))) in Q; [|lra]. rewrite Rmult_0_r in Q.
    replace (n (data N) * (x2 (data N) - 2 * (x (data N) / n (data N)) * x (data N) + n (data N) * (x (data N) / n (data N)) ^ 2))
      with (n (data N) * x2 (data N) - x (data N) ^ 2) in Q by (field; lra). lra. }
  assert (V : is_lim_seq (fun N => x2 (data N) / n (data N) - (x (data N) / n (data N)) ^ 2) (1 / tau)).
  { replace (1 / tau) with (1 / tau + mu ^ 2 - mu * mu) by ring. apply is_lim_seq_ext with (fun N => x2 (data N) / n (data N) - (x (data N) / n (data N)) * (x (data N) / n (data N))); [intros N; ring|].
    apply is_lim_seq_minus'; [exact H2|]. apply is_lim_seq_mult'; exact H1. }
  apply (gamma_concentrates (fun N => a + n (data N) / 2) (fun N => B (data N))).
  - intros N. specialize (Np N). lra.
  - intros N. apply (b_n_pos (fun N => n (data N)) (fun N => x (data N)) (fun N => x2 (data N)) m l b); auto.
  - replace tau with (/ (1 / tau)) by (field; lra).
    apply inv_lim.
    + intros N. specialize (Np N). lra.
    + intros N. apply (b_n_pos (fun N => n (data N)) (fun N => x (data N)) (fun N => x2 (data N)) m l b); auto.
    + exact Hi.
    + apply (b_n_lim (fun N => n (data N)) (fun N => x (data N)) (fun N => x2 (data N)) mu (1 / tau) m l a b); auto. apply Hd.
  - left. apply a_n_lim; [exact (proj2 Hd)].
Qed.

Lemma hypergeometric_breaks (N k n a b e : R) data : 0 < e -> ever_more (fun x => 0 <= x) data -> averages_to data (fun x => x) e ->
  exists K, forall M, (K <= M)%nat -> BetaBinomial_beta (setup_posterior (recover_hypergeometric N k n a b) (data M)) < 0.
Proof.
  intros He Hd Hl. apply averages_id in Hl.
  assert (L : is_lim_seq (fun M => sumR (data M)) p_infty).
  { apply is_lim_seq_ext with (fun M => sumR (data M) / INR (length (data M)) * INR (length (data M))).
    - intros M. pose proof (more_pos _ _ M Hd). field. lra.
    - apply (is_lim_seq_mult _ _ e p_infty); [exact Hl|apply Hd|]. apply is_Rbar_mult_sym, is_Rbar_mult_p_infty_pos. exact He. }
  apply is_lim_seq_spec in L. destruct (L (b + N)) as (K & HK). exists K. intros M HM. specialize (HK M HM).
  unfold recover_hypergeometric, hypergeometric_beta_binomial. cbn [setup_posterior BetaBinomial_beta BetaBinomial_n nadd nsub NumR]. rewrite sum_sumR. lra.
Qed.

Lemma hypergeometric_truth (N k n x : nat) (a b : R) : (x <= k)%nat -> (x <= n)%nat -> (k <= N)%nat -> (n - x <= N - k)%nat ->
  let S := recover_hypergeometric (INR N) (INR k) (INR n) a b in
  exists t, setup_truth S = INR t /\ pmf (setup_dist S) (Z.of_nat x) = Binomial.C t x * Binomial.C (N - t) (n - x) / Binomial.C N n.
Proof. intros H1 H2 H3 H4. exists k. split; [reflexivity|]. exact (hypergeometric_mass N k n x H1 H2 H3 H4). Qed.

(** Example data: the same block of observations again and again. *)
Definition blocks (l : list R) (N : nat) : list R := concat (repeat l (S N)).

Lemma blocks_length (l : list R) N : length (concat (repeat l N)) = (N * length l)%nat.
Proof. induction N; simpl; [reflexivity|]. now rewrite app_length, IHN. Qed.
Lemma blocks_sum (T : R -> R) (l : list R) N : sumR (map T (concat (repeat l N))) = INR N * sumR (map T l).
Proof.
  induction N; [simpl; ring|]. simpl repeat. simpl concat. rewrite map_app, S_INR.
  assert (G : forall u v : list R, sumR (u ++ v) = sumR u + sumR v).
  { induction u; intros v; [simpl; ring|]. simpl. change (a + sumR (u ++ v) = a + sumR u + sumR v). rewrite IHu. ring. }
  rewrite G, IHN. ring.
Qed.

Lemma blocks_more support (l : list R) : l <> [] -> Forall support l -> ever_more support (blocks l).
Proof.
  intros Hl Hs. split.
  - intros N. unfold blocks. split.
    + intros E. apply (f_equal (@length R)) in E. rewrite blocks_length in E. destruct l; [now apply Hl|discriminate E].
    + induction (S N); simpl; [constructor|]. apply Forall_app. now split.
  - apply is_lim_seq_ext with (fun N => INR (S N) * INR (length l)).
    + intros N. unfold blocks. now rewrite blocks_length, mult_INR.
    + assert (0 < INR (length l)) by (apply lt_0_INR; destruct l; [now destruct Hl|simpl; apply Nat.lt_0_succ]).
      apply (is_lim_seq_mult _ _ p_infty (INR (length l))).
      * apply -> is_lim_seq_incr_1. apply is_lim_seq_INR.
      * apply is_lim_seq_const.
      * apply is_Rbar_mult_p_infty_pos. assumption.
Qed.

Lemma blocks_average T (l : list R) : l <> [] -> averages_to (blocks l) T (sumR (map T l) / INR (length l)).
Proof.
  intros Hl. unfold averages_to. eapply is_lim_seq_ext; [|apply is_lim_seq_const]. intros N. unfold blocks. rewrite blocks_sum, blocks_length, mult_INR.
  field. split; apply not_0_INR; [destruct l; [now destruct Hl|discriminate]|discriminate].
Qed.
