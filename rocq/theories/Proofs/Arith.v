(** Arithmetic of distributions is the distribution of sums: C39, C40. *)

From Coq Require Import Reals Lra Psatz ZArith Lia Classical.
From Coquelicot Require Import Coquelicot.
From Verif Require Import Model.Num Model.Py Model.Dists Model.ScipyDist Model.Models Spec.Special Spec.Densities Spec.Bayes Spec.Convolution.
From Verif Require Import Analysis.Improper Analysis.RealAux Analysis.GammaBeta Analysis.GammaFacts Analysis.Gauss Proofs.Pdfs Proofs.Conj Proofs.Predictive.
From Coq Require Import List.
Import ListNotations.
Open Scope R_scope.

Lemma sum_f_R0_scal c f n : sum_f_R0 (fun k => c * f k) n = c * sum_f_R0 f n.
Proof. induction n; simpl; auto. rewrite IHn. ring. Qed.

Lemma poisson_conv a b k :
  convN (fun i => pmf (S_poisson a) (Z.of_nat i)) (fun i => pmf (S_poisson b) (Z.of_nat i)) k = pmf (S_poisson (a + b)) (Z.of_nat k).
Proof.
  unfold convN. rewrite poisson_pmf.
  rewrite (sum_eq _ (fun i => exp (- (a + b)) / INR (fact k) * (Binomial.C k i * a ^ i * b ^ (k - i)))).
  - rewrite sum_f_R0_scal, <- binomial. unfold Rdiv. ring.
  - intros i Hi. rewrite !poisson_pmf. unfold Binomial.C. rewrite Ropp_plus_distr, exp_plus.
    pose proof (fact_pos k). pose proof (fact_pos i). pose proof (fact_pos (k - i)). field. lra.
Qed.

Lemma convN_ext f f' g g' k : (forall i, f i = f' i) -> (forall i, g i = g' i) -> convN f g k = convN f' g' k.
Proof. intros H1 H2. unfold convN. apply sum_eq. intros. now rewrite H1, H2. Qed.

Lemma Poisson_add_conv (d1 d2 : Poisson R) k :
  pmf (Poisson_dist (Poisson_add d1 d2)) (Z.of_nat k) =
  convN (fun i => pmf (Poisson_dist d1) (Z.of_nat i)) (fun i => pmf (Poisson_dist d2) (Z.of_nat i)) k.
Proof. symmetry. apply poisson_conv. Qed.

Lemma Poisson_mul_iid (d : Poisson R) (n k : nat) :
  pmf (Poisson_dist (Poisson_mul d (INR n))) (Z.of_nat k) = iidN (fun i => pmf (Poisson_dist d) (Z.of_nat i)) n k.
Proof.
  destruct d as [lam]. cbv [Poisson_dist Poisson_mul Poisson_lam nmul NumR].
  revert k. induction n; intros k.
  - simpl INR. rewrite Rmult_0_r, poisson_pmf. destruct k; simpl iidN.
    + rewrite Ropp_0, exp_0. simpl. field.
    + rewrite pow_i by lia. unfold Rdiv. ring.
  - simpl iidN. rewrite (convN_ext _ (fun i => pmf (S_poisson lam) (Z.of_nat i)) _ (fun i => pmf (S_poisson (lam * INR n)) (Z.of_nat i))); auto.
    rewrite poisson_conv, S_INR. do 2 f_equal. ring.
Qed.

(** Vandermonde for rising factorials. *)
Lemma convN_sum (A B : nat -> R) k :
  sum_f_R0 (fun i => A i * B (S k - i)%nat) (S k) = A O * B (S k) + sum_f_R0 (fun i => A (S i) * B (k - i)%nat) k.
Proof.
  rewrite decomp_sum by lia. simpl pred. rewrite Nat.sub_0_r. reflexivity.
Qed.

Lemma rising_vandermonde a b k :
  convN (fun i => rising a i / INR (fact i)) (fun i => rising b i / INR (fact i)) k = rising (a + b) k / INR (fact k).
Proof.
  set (A := fun i => rising a i / INR (fact i)). set (B := fun i => rising b i / INR (fact i)).
  assert (HA : forall c i, INR (S i) * (rising c (S i) / INR (fact (S i))) = (c + INR i) * (rising c i / INR (fact i))).
  { intros c i. rewrite fact_simpl, mult_INR. simpl rising. pose proof (fact_pos i). pose proof (lt_0_INR (S i) ltac:(lia)). field. lra. }
  unfold convN. induction k.
  - simpl. unfold A, B. simpl. field.
  - apply Rmult_eq_reg_l with (INR (S k)). 2: apply not_0_INR; lia.
    rewrite (HA (a + b) k).
    fold (rising (a + b) k / INR (fact k)). rewrite <- IHk.
    transitivity (sum_f_R0 (fun i => INR i * A i * B (S k - i)%nat) (S k) + sum_f_R0 (fun i => A i * (INR (S k - i) * B (S k - i)%nat)) (S k)).
    { rewrite <- sum_plus, <- sum_f_R0_scal. apply sum_eq. intros i Hi. rewrite minus_INR by auto. ring. }
    rewrite (convN_sum (fun i => INR i * A i) B k).
    rewrite (tech5 (fun i => A i * (INR (S k - i) * B (S k - i)%nat)) k). rewrite Nat.sub_diag.
    simpl (INR 0). rewrite !Rmult_0_l, Rmult_0_r, Rplus_0_l, Rplus_0_r.
    rewrite <- sum_plus, <- sum_f_R0_scal. apply sum_eq. intros i Hi.
    replace (S k - i)%nat with (S (k - i)) by lia. unfold A at 1. rewrite (HA a i).
    unfold B at 2. rewrite (HA b (k - i)%nat). fold (A i). fold (B (k - i)%nat). rewrite minus_INR by auto. ring.
Qed.

Lemma nbinom_conv a b p k :
  convN (fun i => pmf (S_nbinom a p) (Z.of_nat i)) (fun i => pmf (S_nbinom b p) (Z.of_nat i)) k = pmf (S_nbinom (a + b) p) (Z.of_nat k).
Proof.
  rewrite nbinom_pmf, <- rising_vandermonde. unfold convN. rewrite Rpower_plus.
  rewrite <- !sum_f_R0_mult_r. apply sum_eq. intros i Hi. rewrite !nbinom_pmf.
  replace ((1 - p) ^ k) with ((1 - p) ^ i * (1 - p) ^ (k - i)). ring. rewrite <- pow_add. f_equal. lia.
Qed.

Lemma NegativeBinomial_mul_iid (d : NegativeBinomial R) (n k : nat) :
  pmf (NegativeBinomial_dist (NegativeBinomial_mul d (INR n))) (Z.of_nat k) =
  iidN (fun i => pmf (NegativeBinomial_dist d) (Z.of_nat i)) n k.
Proof.
  destruct d as [r p]. cbv [NegativeBinomial_dist NegativeBinomial_mul NegativeBinomial_n NegativeBinomial_p nmul NumR].
  revert k. induction n; intros k.
  - simpl INR. rewrite Rmult_0_r, nbinom_pmf, Rpower_0. destruct k; simpl iidN.
    + simpl. field.
    + assert (H : rising 0 (S k) = 0). { clear. induction k; simpl in *. ring. rewrite IHk. ring. }
      rewrite H. unfold Rdiv. ring.
  - simpl iidN. rewrite (convN_ext _ (fun i => pmf (S_nbinom r p) (Z.of_nat i)) _ (fun i => pmf (S_nbinom (r * INR n) p) (Z.of_nat i))); auto.
    rewrite nbinom_conv, S_INR. do 2 f_equal. ring.
Qed.

(** C23, what n means: the library's result is the distribution of the sum of n
    counts that do not share their rate. *)
Lemma poisson_gamma_predictive_sum (d : Gamma R) (n k : nat) :
  pmf (NegativeBinomial_dist (poisson_gamma_predictive d (INR n))) (Z.of_nat k) =
  iidN (fun i => pmf (NegativeBinomial_dist (poisson_gamma_predictive d 1)) (Z.of_nat i)) n k.
Proof.
  rewrite <- NegativeBinomial_mul_iid. destruct d as [a b].
  cbv [NegativeBinomial_dist NegativeBinomial_mul poisson_gamma_predictive NegativeBinomial_n NegativeBinomial_p Gamma_alpha Gamma_beta nmul NumR].
  do 2 f_equal. ring.
Qed.

(** Gamma *)
Lemma at_left_scale x : 0 < x -> filterlim (fun t => / x * t) (at_left x) (at_left 1).
Proof.
  intros Hx P [eps HP].
  assert (Hd : 0 < eps * x) by (apply Rmult_lt_0_compat; auto; apply cond_pos).
  exists (mkposreal _ Hd). intros y Hy Hy0.
  unfold ball in Hy; simpl in Hy; unfold AbsRing_ball, abs, minus, plus, opp in Hy; simpl in Hy.
  assert (Hix : 0 < / x) by now apply Rinv_0_lt_compat.
  apply HP.
  - unfold ball; simpl; unfold AbsRing_ball, abs, minus, plus, opp; simpl.
    replace (/ x * y + - (1)) with (/ x * (y + - x)) by (field; lra). rewrite Rabs_mult, (Rabs_right (/ x)) by lra.
    apply Rmult_lt_compat_l with (r := / x) in Hy; auto. replace (/ x * (eps * x)) with (pos eps) in Hy by (field; lra). exact Hy.
  - replace 1 with (/ x * x) by (field; lra). apply Rmult_lt_compat_l; auto.
Qed.

Lemma is_RInt_gen_Beta_scaled a b x : 0 < a -> 0 < b -> 0 < x ->
  is_RInt_gen (fun y => Rpower y (a - 1) * Rpower (x - y) (b - 1)) Fpos0 (at_left x) (Rpower x (a + b - 1) * Beta_fun a b).
Proof.
  intros Ha Hb Hx. pose proof (is_RInt_gen_Beta a b Ha Hb) as H.
  assert (Hix : 0 < / x) by now apply Rinv_0_lt_compat.
  apply (is_RInt_gen_subst _ _ _ (ends_open 0 x Hx) Fpos0 Fone (fun x => 0 < x < 1) _ (fun t => / x * t) (fun _ => / x)) in H.
  - pose proof (e_Fa _ _ _ (ends_open 0 x Hx)). pose proof (e_Fb _ _ _ (ends_open 0 x Hx)).
    apply (is_RInt_gen_mult_l _ _ _ (Rpower x (a + b - 1))) in H; try typeclasses eauto.
    revert H. apply (is_RInt_gen_ext_on _ _ _ (ends_open 0 x Hx)). intros y Hy.
    replace (1 - / x * y) with ((x - y) / x) by (field; lra). replace (/ x * y) with (y / x) by (field; lra).
    rewrite !Rpower_div_base by lra. replace (a + b - 1) with ((a - 1) + (b - 1) + 1) by ring.
    rewrite (Rpower_plus (a - 1 + (b - 1)) 1), (Rpower_plus (a - 1) (b - 1) x), Rpower_1 by auto.
    assert (0 < Rpower x (a - 1)) by apply Rpower_pos. assert (0 < Rpower x (b - 1)) by apply Rpower_pos.
    field. lra.
  - typeclasses eauto.
  - typeclasses eauto.
  - intros y Hy. split. apply Rmult_lt_0_compat; lra. replace 1 with (/ x * x) by (field; lra). apply Rmult_lt_compat_l; lra.
  - intros y _. auto_derive; auto. ring.
  - intros y _. apply continuous_const.
  - apply cont_beta_integrand.
  - apply filterlim_mult_pos_0; auto.
  - now apply at_left_scale.
Qed.

Lemma gamma_conv a b rate x : 0 < a -> 0 < b -> 0 < rate -> 0 < x ->
  conv_pos (pdf (S_gamma_scale a (1 / rate))) (pdf (S_gamma_scale b (1 / rate))) x (pdf (S_gamma_scale (a + b) (1 / rate)) x).
Proof.
  intros Ha Hb Hr Hx. unfold conv_pos. pose proof (Gamma_fun_pos a Ha). pose proof (Gamma_fun_pos b Hb). pose proof (Gamma_fun_pos (a + b) ltac:(lra)).
  rewrite gamma_pdf by auto.
  pose proof (e_Fa _ _ _ (ends_open 0 x Hx)). pose proof (e_Fb _ _ _ (ends_open 0 x Hx)).
  pose proof (is_RInt_gen_mult_l Fpos0 (at_left x) _ (Rpower rate (a + b) / (Gamma_fun a * Gamma_fun b) * exp (- (rate * x))) _ (is_RInt_gen_Beta_scaled a b x Ha Hb Hx)) as HH.
  rewrite Beta_fun_Gamma in HH by auto.
  replace (Rpower rate (a + b) / (Gamma_fun a * Gamma_fun b) * exp (- (rate * x)) * (Rpower x (a + b - 1) * (Gamma_fun a * Gamma_fun b / Gamma_fun (a + b))))
   with (Rpower rate (a + b) / Gamma_fun (a + b) * (Rpower x (a + b - 1) * exp (- (rate * x)))) in HH by (field; lra).
  revert HH. apply (is_RInt_gen_ext_on _ _ _ (ends_open 0 x Hx)). intros y Hy.
  rewrite !gamma_pdf by lra. rewrite (Rpower_plus a b).
  replace (- (rate * x)) with (- (rate * y) + - (rate * (x - y))) by ring. rewrite exp_plus. field. lra.
Qed.

Lemma gamma_iid a rate n : 0 < a -> 0 < rate ->
  iid_density conv_pos (fun x => 0 < x) (pdf (S_gamma_scale a (1 / rate))) n (pdf (S_gamma_scale (a * INR (S n)) (1 / rate))).
Proof.
  intros Ha Hr. induction n.
  - intros x Hx. simpl INR. now rewrite Rmult_1_r.
  - exists (pdf (S_gamma_scale (a * INR (S n)) (1 / rate))). split; auto. intros x Hx.
    replace (a * INR (S (S n))) with (a + a * INR (S n)) by (rewrite (S_INR (S n)); ring).
    apply gamma_conv; auto. apply Rmult_lt_0_compat; auto. apply lt_0_INR; lia.
Qed.

Lemma Gamma_mul_iid (d : Gamma R) (n : nat) : 0 < Gamma_alpha d -> 0 < Gamma_beta d ->
  iid_density conv_pos (fun x => 0 < x) (pdf (Gamma_dist d)) n (pdf (Gamma_dist (Gamma_mul d (INR (S n))))).
Proof. destruct d as [a b]. apply gamma_iid. Qed.

Lemma Exponential_mul_iid (d : Exponential R) (n : nat) : 0 < Exponential_lam d ->
  iid_density conv_pos (fun x => 0 < x) (pdf (Exponential_dist d)) n (pdf (Gamma_dist (Exponential_mul d (INR (S n))))).
Proof.
  destruct d as [lam]. simpl Exponential_lam. intros Hl.
  cbv [Exponential_mul Gamma_dist Gamma_alpha Gamma_beta Exponential_dist Exponential_lam ndiv nlit NumR].
  assert (H1 : 0 < 1 / lam) by (apply Rdiv_lt_0_compat; lra).
  assert (He : forall x, 0 < x -> pdf (S_gamma_scale 1 (1 / (1 / lam))) x = pdf (S_expon_scale lam) x).
  { intros x Hx. rewrite gamma_pdf, expon_pdf by lra. rewrite Gamma_fun_1, Rminus_diag_eq, Rpower_0, Rpower_1 by auto.
    replace (1 / lam * x) with (x / lam) by (field; lra). field. lra. }
  pose proof (gamma_iid 1 (1 / lam) n Rlt_0_1 H1) as H. rewrite Rmult_1_l in H.
  revert H. generalize (pdf (S_gamma_scale (INR (S n)) (1 / (1 / lam)))).
  clear - He. induction n; intros h H.
  - intros x Hx. rewrite <- He by auto. now apply H.
  - destruct H as (h' & H1 & H2). exists h'. split; auto. intros x Hx. specialize (H2 x Hx).
    unfold conv_pos in *. revert H2. apply (is_RInt_gen_ext_on _ _ _ (ends_open 0 x Hx)). intros y Hy. now rewrite He by lra.
Qed.

(** Normal *)
Lemma normal_conv m1 s1 m2 s2 x : 0 < s1 -> 0 < s2 ->
  conv_line (pdf (S_norm m1 s1)) (pdf (S_norm m2 s2)) x (pdf (S_norm (m1 + m2) (sqrt (s1 ^ 2 + s2 ^ 2))) x).
Proof.
  intros H1 H2. pose proof (normal_normal_marginal m1 s1 s2 (x - m2) H1 H2) as H. unfold conv_line, marginal in *.
  assert (0 < sqrt (s2 ^ 2 + s1 ^ 2)) by (apply sqrt_lt_R0; nra).
  replace (pdf (S_norm (m1 + m2) (sqrt (s1 ^ 2 + s2 ^ 2))) x) with (pdf (S_norm m1 (sqrt (s2 ^ 2 + s1 ^ 2))) (x - m2)).
  - revert H. apply (is_RInt_gen_ext_on _ _ _ ends_line). intros y _. rewrite !norm_pdf by auto.
    replace (x - m2 - y) with (x - y - m2) by ring. ring.
  - rewrite (Rplus_comm (s2 ^ 2)) in *. rewrite !norm_pdf by auto. do 5 f_equal. ring.
Qed.

Lemma Normal_mul_iid (d : Normal R) (n : nat) : 0 < Normal_sigma d ->
  iid_density conv_line (fun _ => True) (pdf (Normal_dist d)) n (pdf (Normal_dist (Normal_mul d (INR (S n))))).
Proof.
  destruct d as [m s]. simpl Normal_sigma. intros Hs.
  cbv [Normal_dist Normal_mul Normal_mu Normal_sigma nmul nsqrt nsq NumR].
  assert (Hs2 : 0 < s ^ 2) by nra.
  induction n.
  - intros x _. simpl INR. rewrite !Rmult_1_r, sqrt_pow2 by lra. reflexivity.
  - exists (pdf (S_norm (m * INR (S n)) (sqrt (s ^ 2 * INR (S n))))). split; auto. intros x _.
    assert (Hn : 0 < INR (S n)) by (apply lt_0_INR; lia).
    pose proof (normal_conv m s (m * INR (S n)) (sqrt (s ^ 2 * INR (S n))) x Hs ltac:(apply sqrt_lt_R0; nra)) as H.
    rewrite pow2_sqrt in H by nra.
    replace (m * INR (S (S n))) with (m + m * INR (S n)) by (rewrite (S_INR (S n)); ring).
    replace (s ^ 2 * INR (S (S n))) with (s ^ 2 + s ^ 2 * INR (S n)) by (rewrite (S_INR (S n)); ring). exact H.
Qed.

(** Scaling laws. *)
Lemma Gamma_mul_mul (d : Gamma R) (x y : R) : Gamma_mul (Gamma_mul d x) y = Gamma_mul d (x * y).
Proof. destruct d. unfold Gamma_mul. simpl. f_equal. ring. Qed.
Lemma Poisson_mul_mul (d : Poisson R) (x y : R) : Poisson_mul (Poisson_mul d x) y = Poisson_mul d (x * y).
Proof. destruct d. unfold Poisson_mul. simpl. f_equal. ring. Qed.
Lemma NegativeBinomial_mul_mul (d : NegativeBinomial R) (x y : R) : NegativeBinomial_mul (NegativeBinomial_mul d x) y = NegativeBinomial_mul d (x * y).
Proof. destruct d. unfold NegativeBinomial_mul. simpl. f_equal. ring. Qed.
Lemma Normal_mul_mul (d : Normal R) (x y : R) : 0 <= x -> 0 <= y -> Normal_mul (Normal_mul d x) y = Normal_mul d (x * y).
Proof.
  intros Hx Hy. destruct d as [m s]. unfold Normal_mul. cbv [Normal_mu Normal_sigma nmul nsqrt nsq NumR].
  f_equal. ring. rewrite pow2_sqrt by nra. f_equal. ring.
Qed.
Lemma Exponential_mul_mul (d : Exponential R) (x y : R) : Gamma_mul (Exponential_mul d x) y = Exponential_mul d (x * y).
Proof. reflexivity. Qed.
Lemma Poisson_add_comm (d1 d2 : Poisson R) : Poisson_add d1 d2 = Poisson_add d2 d1.
Proof. unfold Poisson_add. simpl. f_equal. ring. Qed.
Lemma Poisson_add_assoc (d1 d2 d3 : Poisson R) : Poisson_add d1 (Poisson_add d2 d3) = Poisson_add (Poisson_add d1 d2) d3.
Proof. unfold Poisson_add. simpl. f_equal. ring. Qed.
