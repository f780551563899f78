(** Posterior predictive distributions are the marginals. *)

From Coq Require Import Reals Lra Psatz ZArith Lia Classical.
From Coquelicot Require Import Coquelicot.
From Verif Require Import Model.Num Model.Py Model.Dists Model.ScipyDist Model.Models Spec.Special Spec.Densities Spec.Bayes Spec.Joint.
From Verif Require Import Analysis.Improper Analysis.RealAux Analysis.GammaBeta Analysis.GammaFacts Analysis.Gauss Proofs.Pdfs Proofs.Conj.
From Coq Require Import List.
Import ListNotations.
Open Scope R_scope.

Lemma marginal_kernel (I : R -> Prop) Fa Fb (E : Ends I Fa Fb) (dens lik k : R -> R) (C l v : R) :
  (forall t, I t -> lik t * dens t = C * k t) -> is_RInt_gen k Fa Fb l -> v = C * l ->
  marginal Fa Fb dens lik v.
Proof.
  intros H Hk ->. pose proof (e_Fa _ _ _ E). pose proof (e_Fb _ _ _ E).
  apply (is_RInt_gen_ext_on _ _ _ E (fun t => C * k t)). intros; symmetry; auto.
  apply is_RInt_gen_mult_l; auto; typeclasses eauto.
Qed.

Notation E01 := (ends_open 0 1 Rlt_0_1).

(** The densities integrate to one. *)
Lemma beta_normalised a b : 0 < a -> 0 < b -> is_RInt_gen (pdf (S_beta a b)) Fpos0 Fone 1.
Proof.
  intros Ha Hb. pose proof (Beta_fun_pos a b Ha Hb).
  apply (is_RInt_gen_ext_on _ _ _ E01 (fun t => / Beta_fun a b * (Rpower t (a - 1) * Rpower (1 - t) (b - 1)))).
  - intros t Ht. now rewrite beta_pdf.
  - assert (E1 : / Beta_fun a b * Beta_fun a b = 1) by (field; lra).
    match goal with |- ?G => enough (HH : is_RInt_gen (fun t => / Beta_fun a b * (Rpower t (a - 1) * Rpower (1 - t) (b - 1))) Fpos0 Fone (/ Beta_fun a b * Beta_fun a b)) by (rewrite E1 in HH; exact HH) end.
    apply is_RInt_gen_mult_l; try typeclasses eauto. now apply is_RInt_gen_Beta.
Qed.

(** C20 *)
Lemma betabinom_pmf n a b k : (k <= n)%nat ->
  pmf (S_betabinom (INR n) a b) (Z.of_nat k) = choose (INR n) k * Beta_fun (INR k + a) (INR n - INR k + b) / Beta_fun a b.
Proof.
  intros H. unfold pmf. rewrite Nat2Z.id, Rnat_INR.
  replace (0 <=? Z.of_nat k)%Z with true by (symmetry; apply Z.leb_le; lia).
  replace (k <=? n)%nat with true by (symmetry; apply Nat.leb_le; lia). reflexivity.
Qed.

Lemma binomial_beta_predictive_marginal (d : Beta R) (n k : nat) :
  0 < Beta_alpha d -> 0 < Beta_beta d -> (k <= n)%nat ->
  marginal Fpos0 Fone (pdf (Beta_dist d)) (fun p => pmf (Binomial_dist (mkBinomial (INR n) p)) (Z.of_nat k))
    (pmf (BetaBinomial_dist (binomial_beta_predictive (INR n) d)) (Z.of_nat k)).
Proof.
  destruct d as [a b]; simpl Beta_alpha; simpl Beta_beta. intros Ha Hb Hk.
  pose proof (Beta_fun_pos a b Ha Hb).
  assert (0 <= INR n - INR k) by (apply le_INR in Hk; lra). pose proof (pos_INR k).
  apply (marginal_kernel _ _ _ E01 _ _ (fun t => Rpower t (INR k + a - 1) * Rpower (1 - t) (INR n - INR k + b - 1))
     (choose (INR n) k / Beta_fun a b) (Beta_fun (INR k + a) (INR n - INR k + b))).
  - intros t Ht. unfold Binomial_dist, Beta_dist; simpl Binomial_n; simpl Binomial_p; simpl Beta_alpha; simpl Beta_beta.
    rewrite binom_pmf, beta_pdf by auto.
    replace (INR k + a - 1) with (INR k + (a - 1)) by ring.
    replace (INR n - INR k + b - 1) with (INR n - INR k + (b - 1)) by ring.
    rewrite !Rpower_plus, <- minus_INR, !Rpower_INR by (auto; lra). unfold Rdiv. ring.
  - apply is_RInt_gen_Beta; lra.
  - unfold BetaBinomial_dist, binomial_beta_predictive; simpl BetaBinomial_n; simpl BetaBinomial_alpha; simpl BetaBinomial_beta; simpl Beta_alpha; simpl Beta_beta.
    rewrite betabinom_pmf by auto. unfold Rdiv. ring.
Qed.

(** Sum of binomial masses. *)
Lemma falling_C n k : (k <= n)%nat -> falling (INR n) k = INR (fact n) / INR (fact (n - k)).
Proof.
  induction k; intros H.
  - simpl. rewrite Nat.sub_0_r. field. apply INR_fact_neq_0.
  - simpl falling. rewrite IHk by lia. replace (n - k)%nat with (S (n - S k)) by lia.
    rewrite fact_simpl, mult_INR. replace (INR (S (n - S k))) with (INR n - INR k).
    + field. split. apply INR_fact_neq_0. apply lt_INR in H. lra.
    + rewrite <- minus_INR by lia. f_equal. lia.
Qed.

Lemma choose_C n k : (k <= n)%nat -> choose (INR n) k = Binomial.C n k.
Proof.
  intros H. unfold choose, Binomial.C. rewrite falling_C by auto. field. split; apply INR_fact_neq_0.
Qed.

Lemma binom_total n p : sum_f_R0 (fun k => pmf (S_binom (INR n) p) (Z.of_nat k)) n = 1.
Proof.
  transitivity (sum_f_R0 (fun k => Binomial.C n k * p ^ k * (1 - p) ^ (n - k)) n).
  - apply sum_eq. intros k Hk. rewrite binom_pmf, choose_C by auto. reflexivity.
  - rewrite <- binomial. replace (p + (1 - p)) with 1 by ring. apply pow1.
Qed.

Lemma sum_f_R0_mult_r (f : nat -> R) c n : sum_f_R0 (fun k => f k * c) n = sum_f_R0 f n * c.
Proof. induction n; simpl; auto. rewrite IHn. ring. Qed.

Lemma is_RInt_gen_sum (Fa Fb : (R -> Prop) -> Prop) {FFa : Filter Fa} {FFb : Filter Fb} (f : nat -> R -> R) (l : nat -> R) n :
  (forall k, (k <= n)%nat -> is_RInt_gen (f k) Fa Fb (l k)) ->
  is_RInt_gen (fun t => sum_f_R0 (fun k => f k t) n) Fa Fb (sum_f_R0 l n).
Proof.
  induction n; intros H; simpl. apply H. lia.
  apply is_RInt_gen_plus_R; auto.
Qed.

Lemma betabinom_total (n : nat) a b : 0 < a -> 0 < b ->
  sum_f_R0 (fun k => pmf (S_betabinom (INR n) a b) (Z.of_nat k)) n = 1.
Proof.
  intros Ha Hb.
  apply (is_RInt_gen_unique_on _ _ _ E01 (pdf (S_beta a b))).
  - apply (is_RInt_gen_ext_on _ _ _ E01 (fun t => sum_f_R0 (fun k => pmf (S_binom (INR n) t) (Z.of_nat k) * pdf (S_beta a b) t) n)).
    + intros t Ht. rewrite sum_f_R0_mult_r, binom_total. ring.
    + apply (is_RInt_gen_sum _ _ (fun k t => pmf (S_binom (INR n) t) (Z.of_nat k) * pdf (S_beta a b) t)).
      intros k Hk. exact (binomial_beta_predictive_marginal (mkBeta a b) n k Ha Hb Hk).
  - now apply beta_normalised.
Qed.

Lemma binomial_beta_predictive_total (d : Beta R) (n : nat) : 0 < Beta_alpha d -> 0 < Beta_beta d ->
  sum_f_R0 (fun k => pmf (BetaBinomial_dist (binomial_beta_predictive (INR n) d)) (Z.of_nat k)) n = 1.
Proof. intros. now apply betabinom_total. Qed.

Lemma bernoulli_predictive_success (d : Beta R) : 0 < Beta_alpha d -> 0 < Beta_beta d ->
  pmf (BetaBinomial_dist (bernoulli_beta_predictive d)) 1 = Beta_alpha d / (Beta_alpha d + Beta_beta d).
Proof.
  destruct d as [a b]; simpl Beta_alpha; simpl Beta_beta. intros Ha Hb.
  transitivity (pmf (S_betabinom (INR 1) a b) (Z.of_nat 1)); [reflexivity|].
  rewrite betabinom_pmf by lia. unfold choose. simpl.
  replace (1 + a) with (a + 1) by ring. replace (1 - 1 + b) with b by ring.
  rewrite Beta_fun_succ_l by auto. field. pose proof (Beta_fun_pos a b Ha Hb). lra.
Qed.

(** C21 *)
Lemma falling_rising n k : falling (n + INR k - 1) k = rising n k.
Proof.
  assert (H : forall j, (j <= k)%nat -> falling (n + INR k - 1) k = falling (n + INR k - 1) (k - j) * rising n j).
  2:{ rewrite (H k) by lia. rewrite Nat.sub_diag. simpl. ring. }
  induction j; intros Hj.
  - rewrite Nat.sub_0_r. simpl. ring.
  - rewrite IHj by lia. replace (k - j)%nat with (S (k - S j)) by lia. simpl falling. simpl rising.
    rewrite minus_INR, S_INR by lia. ring.
Qed.

Lemma negative_binomial_beta_predictive_marginal (d : Beta R) (r : R) (k : nat) (rel : list nat) dist :
  0 < Beta_alpha d -> 0 < Beta_beta d -> 0 < r ->
  BetaNegativeBinomial_dist rel (negative_binomial_beta_predictive r d) = Ok dist ->
  marginal Fpos0 Fone (pdf (Beta_dist d)) (fun p => pmf (NegativeBinomial_dist (mkNegativeBinomial r p)) (Z.of_nat k))
    (pmf dist (Z.of_nat k)).
Proof.
  destruct d as [a b]; simpl Beta_alpha; simpl Beta_beta. intros Ha Hb Hr Hd.
  unfold BetaNegativeBinomial_dist in Hd. destruct (tuple_lt _ _); inversion Hd; subst dist; clear Hd.
  simpl BetaNegativeBinomial_n; simpl BetaNegativeBinomial_alpha; simpl BetaNegativeBinomial_beta.
  pose proof (Beta_fun_pos a b Ha Hb). pose proof (pos_INR k).
  apply (marginal_kernel _ _ _ E01 _ _ (fun t => Rpower t (a + r - 1) * Rpower (1 - t) (b + INR k - 1))
     (rising r k / INR (fact k) / Beta_fun a b) (Beta_fun (a + r) (b + INR k))).
  - intros t Ht. unfold NegativeBinomial_dist, Beta_dist; simpl NegativeBinomial_n; simpl NegativeBinomial_p; simpl Beta_alpha; simpl Beta_beta.
    rewrite nbinom_pmf, beta_pdf by auto.
    replace (a + r - 1) with (r + (a - 1)) by ring.
    replace (b + INR k - 1) with (INR k + (b - 1)) by ring.
    rewrite !Rpower_plus, (Rpower_INR (1 - t)) by (auto; lra). unfold Rdiv. ring.
  - apply is_RInt_gen_Beta; lra.
  - unfold pmf. rewrite Nat2Z.id. replace (0 <=? Z.of_nat k)%Z with true by (symmetry; apply Z.leb_le; lia).
    unfold choose. rewrite falling_rising. unfold Rdiv. ring.
Qed.

(** C22 *)
Lemma geometric_marginal (d : Beta R) (one_start : bool) (k : nat) :
  0 < Beta_alpha d -> 0 < Beta_beta d ->
  marginal Fpos0 Fone (pdf (Beta_dist d))
    (fun p => pmf (Geometric_dist (mkGeometric p one_start)) (Z.of_nat k + (if one_start then 1 else 0)))
    (Beta_fun (Beta_alpha d + 1) (INR k + Beta_beta d) / Beta_fun (Beta_alpha d) (Beta_beta d)).
Proof.
  destruct d as [a b]; simpl Beta_alpha; simpl Beta_beta. intros Ha Hb.
  pose proof (Beta_fun_pos a b Ha Hb). pose proof (pos_INR k).
  apply (marginal_kernel _ _ _ E01 _ _ (fun t => Rpower t (a + 1 - 1) * Rpower (1 - t) (INR k + b - 1))
     (/ Beta_fun a b) (Beta_fun (a + 1) (INR k + b))).
  - intros t Ht. unfold Geometric_dist, Beta_dist; simpl Geometric_one_start; simpl Geometric_p; simpl Beta_alpha; simpl Beta_beta.
    set (o := (if one_start then 1 else 0)%Z).
    replace (if one_start then nlit 0 else nlit (-1)) with (IZR (o - 1)) by (unfold o; destruct one_start; reflexivity).
    replace (Z.of_nat k + o)%Z with (Z.of_nat (S k) + (o - 1))%Z by lia.
    rewrite geom_pmf, beta_pdf by (auto; lia). replace (S k - 1)%nat with k by lia.
    replace (a + 1 - 1) with (1 + (a - 1)) by ring.
    replace (INR k + b - 1) with (INR k + (b - 1)) by ring.
    rewrite !Rpower_plus, (Rpower_INR (1 - t)), Rpower_1 by (auto; lra). unfold Rdiv. ring.
  - apply is_RInt_gen_Beta; lra.
  - unfold Rdiv. ring.
Qed.

(** The library's pmf at an outcome is the marginal of the next outcome. *)
Lemma geometric_beta_predictive_shifted (d : Beta R) (one_start : bool) (z : Z) :
  0 < Beta_alpha d -> 0 < Beta_beta d -> ((if one_start then 0 else -1) <= z)%Z ->
  marginal Fpos0 Fone (pdf (Beta_dist d))
    (fun p => pmf (Geometric_dist (mkGeometric p one_start)) (z + 1))
    (pmf (BetaGeometric_dist (geometric_beta_predictive d one_start)) z).
Proof.
  intros Ha Hb Hz.
  pose (k := Z.to_nat (z + 1 - (if one_start then 1 else 0))).
  assert (Hk : (z + 1 = Z.of_nat k + (if one_start then 1 else 0))%Z) by (unfold k; destruct one_start; lia).
  rewrite Hk. 
  replace (pmf (BetaGeometric_dist (geometric_beta_predictive d one_start)) z) with
    (Beta_fun (Beta_alpha d + 1) (INR k + Beta_beta d) / Beta_fun (Beta_alpha d) (Beta_beta d)).
  now apply geometric_marginal.
  unfold BetaGeometric_dist, geometric_beta_predictive, pmf, beta_geometric_pmf; simpl.
  do 3 f_equal. unfold k. rewrite INR_IZR_INZ, Z2Nat.id by (destruct one_start; lia).
  destruct one_start; rewrite ?minus_IZR, ?plus_IZR; simpl; ring.
Qed.

Lemma Beta_fun_diff a b : 0 < a -> 0 < b -> Beta_fun (a + 1) b = Beta_fun a b - Beta_fun a (b + 1).
Proof. intros Ha Hb. rewrite Beta_fun_succ_l, Beta_fun_succ_r by auto. field. lra. Qed.

Lemma harmonic_log b N : 0 < b -> ln (b + INR (S N)) - ln b <= sum_f_R0 (fun i => / (b + INR i)) N.
Proof.
  intros Hb.
  assert (Hstep : forall y, 0 < y -> ln (y + 1) - ln y <= / y).
  { intros y Hy. rewrite <- ln_div by lra. replace ((y + 1) / y) with (1 + / y) by (field; lra).
    assert (0 < / y) by now apply Rinv_0_lt_compat. pose proof (ln_le_sub1 (1 + / y) ltac:(lra)). lra. }
  induction N.
  - simpl. rewrite Rplus_0_r. now apply Hstep.
  - change (sum_f_R0 (fun i => / (b + INR i)) (S N)) with (sum_f_R0 (fun i => / (b + INR i)) N + / (b + INR (S N))).
    pose proof (pos_INR (S N)). specialize (Hstep (b + INR (S N)) ltac:(lra)).
    rewrite (S_INR (S N)), <- Rplus_assoc. lra.
Qed.

Lemma inv_Beta_growth a b N : 0 < a -> 0 < b ->
  (1 + a * sum_f_R0 (fun i => / (b + INR i)) N) / Beta_fun a b <= / Beta_fun a (b + INR (S N)).
Proof.
  intros Ha Hb.
  assert (Hstep : forall y, 0 < y -> / Beta_fun a (y + 1) = / Beta_fun a y * (1 + a / y)).
  { intros y Hy. rewrite Beta_fun_succ_r by auto. pose proof (Beta_fun_pos a y Ha Hy). field. lra. }
  assert (HB := Beta_fun_pos a b Ha Hb).
  induction N.
  - simpl. rewrite Rplus_0_r, Hstep by auto. right. field. lra.
  - change (sum_f_R0 (fun i => / (b + INR i)) (S N)) with (sum_f_R0 (fun i => / (b + INR i)) N + / (b + INR (S N))).
    pose proof (pos_INR (S N)). set (y := b + INR (S N)) in *. assert (Hy : 0 < y) by (unfold y; lra).
    replace (b + INR (S (S N))) with (y + 1) by (unfold y; rewrite (S_INR (S N)); ring).
    rewrite Hstep by auto.
    set (S0 := sum_f_R0 _ N) in *.
    assert (HS : 0 <= S0). { unfold S0. apply cond_pos_sum. intros i. left. apply Rinv_0_lt_compat. pose proof (pos_INR i). lra. }
    assert (Hiy : 0 < / y) by now apply Rinv_0_lt_compat. assert (HiB : 0 < / Beta_fun a b) by now apply Rinv_0_lt_compat.
    apply Rle_trans with ((1 + a * S0) / Beta_fun a b * (1 + a / y)).
    + unfold Rdiv. 
      replace ((1 + a * (S0 + / y)) * / Beta_fun a b) with ((1 + a * S0 + a * / y) * / Beta_fun a b) by ring.
      replace ((1 + a * S0) * / Beta_fun a b * (1 + a * / y)) with ((1 + a * S0 + a * / y + a * S0 * (a * / y)) * / Beta_fun a b) by ring.
      apply Rmult_le_compat_r. lra. assert (0 <= a * S0 * (a * / y)). { apply Rmult_le_pos; apply Rmult_le_pos; lra. } lra.
    + apply Rmult_le_compat_r; auto. assert (0 < a / y) by (apply Rdiv_lt_0_compat; auto). lra.
Qed.

Lemma Beta_fun_vanish a b : 0 < a -> 0 < b -> is_lim_seq (fun N => Beta_fun a (b + INR N)) 0.
Proof.
  intros Ha Hb. assert (HB := Beta_fun_pos a b Ha Hb).
  apply is_lim_seq_spec. intros eps.
  (* need (1 + a (ln (b+N+1) - ln b)) / B > 1/eps *)
  set (L := (Beta_fun a b / eps) / a + ln b).
  assert (He := cond_pos eps).
  exists (S (Z.to_nat (up (exp L)))). intros N HN.
  destruct N as [|N]; [lia|].
  assert (HyN : 0 < b + INR (S N)) by (pose proof (pos_INR (S N)); lra).
  pose proof (Beta_fun_pos a (b + INR (S N)) Ha HyN) as HBN.
  rewrite Rminus_0_r, Rabs_right by lra.
  pose proof (inv_Beta_growth a b N Ha Hb) as H1.
  pose proof (harmonic_log b N Hb) as H2.
  assert (H3 : L < ln (b + INR (S N))).
  { rewrite <- (ln_exp L). apply ln_increasing. apply exp_pos.
    destruct (archimed (exp L)) as [Hup _].
    assert (HZ : (0 <= up (exp L))%Z). { apply le_IZR. pose proof (exp_pos L). lra. }
    assert (IZR (up (exp L)) <= INR (S N)).
    { rewrite INR_IZR_INZ. apply IZR_le. lia. }
    lra. }
  assert (H4 : / eps < / Beta_fun a (b + INR (S N))).
  { eapply Rlt_le_trans; [|exact H1].
    apply Rlt_le_trans with ((1 + a * (L - ln b)) / Beta_fun a b).
    - unfold L. replace (1 + a * (Beta_fun a b / eps / a + ln b - ln b)) with (1 + Beta_fun a b / eps) by (field; lra).
      replace ((1 + Beta_fun a b / eps) / Beta_fun a b) with (/ Beta_fun a b + / eps) by (field; lra).
      assert (0 < / Beta_fun a b) by now apply Rinv_0_lt_compat. lra.
    - apply Rmult_le_compat_r. left; now apply Rinv_0_lt_compat.
      apply Rplus_le_compat_l. apply Rmult_le_compat_l; lra. }
  apply Rinv_lt_contravar in H4. rewrite !Rinv_inv in H4. exact H4.
  apply Rmult_lt_0_compat; now apply Rinv_0_lt_compat.
Qed.

Lemma beta_geometric_sum a b : 0 < a -> 0 < b ->
  is_series (fun k => Beta_fun (a + 1) (INR k + b) / Beta_fun a b) 1.
Proof.
  intros Ha Hb. assert (HB := Beta_fun_pos a b Ha Hb).
  assert (Hp : forall n, sum_n (fun k => Beta_fun (a + 1) (INR k + b) / Beta_fun a b) n = 1 - Beta_fun a (b + INR (S n)) / Beta_fun a b).
  { induction n.
    - rewrite sum_O. simpl. rewrite Rplus_0_l, Beta_fun_diff by auto. field. lra.
    - rewrite sum_Sn, IHn. unfold plus; simpl plus. pose proof (pos_INR (S n)).
      rewrite (Rplus_comm (INR (S n)) b).
      rewrite Beta_fun_diff by lra. rewrite (S_INR (S n)), <- Rplus_assoc. simpl. field. lra. }
  unfold is_series. apply (filterlim_ext (fun n => 1 - Beta_fun a (b + INR (S n)) / Beta_fun a b)).
  { intros; symmetry; apply Hp. }
  assert (HL : is_lim_seq (fun n => 1 - Beta_fun a (b + INR (S n)) / Beta_fun a b) (1 - 0 * / Beta_fun a b)).
  { apply is_lim_seq_minus'. apply is_lim_seq_const. apply is_lim_seq_mult'. 
    apply (is_lim_seq_incr_1 (fun n => Beta_fun a (b + INR n))). now apply Beta_fun_vanish. apply is_lim_seq_const. }
  replace (1 - 0 * / Beta_fun a b) with 1 in HL by ring. exact HL.
Qed.

(** The library's pmf over the support {1,2,...} sums to b / (a + b), not to one. *)
Lemma geometric_beta_predictive_mass (d : Beta R) (one_start : bool) : 0 < Beta_alpha d -> 0 < Beta_beta d ->
  is_series (fun k => pmf (BetaGeometric_dist (geometric_beta_predictive d one_start))
     (Z.of_nat k + (if one_start then 1 else 0))) (Beta_beta d / (Beta_alpha d + Beta_beta d)).
Proof.
  destruct d as [a b]; simpl Beta_alpha; simpl Beta_beta. intros Ha Hb.
  assert (HB := Beta_fun_pos a b Ha Hb).
  apply (is_series_ext (fun k => Beta_fun (a + 1) (INR (S k) + b) / Beta_fun a b)).
  { intros k. unfold BetaGeometric_dist, geometric_beta_predictive, pmf, beta_geometric_pmf; simpl Beta_alpha; simpl Beta_beta.
    simpl BetaGeometric_alpha; simpl BetaGeometric_beta; simpl BetaGeometric_one_start.
    replace (if one_start then IZR (Z.of_nat k + (if one_start then 1 else 0)) else (IZR (Z.of_nat k + (if one_start then 1 else 0)) + nlit 1)%num)
      with (INR (S k)). reflexivity.
    rewrite S_INR, INR_IZR_INZ. destruct one_start; simpl; rewrite plus_IZR; ring. }
  pose proof (beta_geometric_sum a b Ha Hb) as H.
  apply (is_series_incr_1 (V:=R_NormedModule) (fun k => Beta_fun (a + 1) (INR k + b) / Beta_fun a b)).
  assert (E : plus (b / (a + b)) (Beta_fun (a + 1) (INR 0 + b) / Beta_fun a b) = 1).
  { simpl. rewrite Rplus_0_l, Beta_fun_succ_l by auto. unfold plus; simpl. field. lra. }
  match goal with |- is_series _ ?v => replace v with (1:R) by (symmetry; exact E) end. exact H.
Qed.

(** C23 *)
Lemma poisson_gamma_marginal (a b n : R) (k : nat) : 0 < a -> 0 < b -> 0 < n ->
  marginal Fpos0 Finf (pdf (Gamma_dist (mkGamma a b))) (fun lam => pmf (S_poisson (n * lam)) (Z.of_nat k))
    (pmf (S_nbinom a (b / (n + b))) (Z.of_nat k)).
Proof.
  intros Ha Hb Hn. pose proof (Gamma_fun_pos a Ha). pose proof (pos_INR k).
  apply (marginal_kernel _ _ _ ends_pos _ _ (fun t => Rpower t (a + INR k - 1) * exp (- ((n + b) * t)))
     (n ^ k / INR (fact k) * (Rpower b a / Gamma_fun a)) (Gamma_fun (a + INR k) / Rpower (n + b) (a + INR k))).
  - intros t Ht. unfold Gamma_dist; simpl Gamma_alpha; simpl Gamma_beta. change (ndiv (nlit 1) b) with (1 / b).
    rewrite poisson_pmf, gamma_pdf by auto.
    replace (a + INR k - 1) with (INR k + (a - 1)) by ring.
    replace (- ((n + b) * t)) with (- (n * t) + - (b * t)) by ring.
    rewrite exp_plus, Rpower_plus, (Rpower_INR t), Rpow_mult_distr by auto. unfold Rdiv. ring.
  - apply is_RInt_gen_Gamma_scaled; lra.
  - rewrite nbinom_pmf, Gamma_fun_rising by auto.
    rewrite Rpower_div_base by lra. rewrite Rpower_plus, (Rpower_INR (n + b)) by lra.
    replace (1 - b / (n + b)) with (n / (n + b)) by (field; lra). 
    replace ((n / (n + b)) ^ k) with (n ^ k / (n + b) ^ k) by (unfold Rdiv; rewrite Rpow_mult_distr, pow_inv; reflexivity).
    assert (0 < Rpower (n + b) a) by apply Rpower_pos. assert (0 < (n + b) ^ k) by (apply pow_lt; lra).
    pose proof (fact_pos k). field. repeat split; lra.
Qed.

Lemma poisson_gamma_predictive_marginal (d : Gamma R) (k : nat) : 0 < Gamma_alpha d -> 0 < Gamma_beta d ->
  marginal Fpos0 Finf (pdf (Gamma_dist d)) (fun lam => pmf (Poisson_dist (mkPoisson lam)) (Z.of_nat k))
    (pmf (NegativeBinomial_dist (poisson_gamma_predictive d 1)) (Z.of_nat k)).
Proof.
  destruct d as [a b]; simpl Gamma_alpha; simpl Gamma_beta. intros Ha Hb.
  pose proof (poisson_gamma_marginal a b 1 k Ha Hb Rlt_0_1) as H.
  unfold NegativeBinomial_dist, poisson_gamma_predictive, Poisson_dist; simpl. rewrite Rmult_1_l.
  unfold marginal in *. revert H. apply (is_RInt_gen_ext_on _ _ _ ends_pos). intros t Ht. now rewrite Rmult_1_l.
Qed.

(** C24 *)
Lemma gamma_known_shape_predictive_marginal (d : Gamma R) (alpha x : R) :
  0 < Gamma_alpha d -> 0 < Gamma_beta d -> 0 < alpha -> 0 < x ->
  marginal Fpos0 Finf (pdf (Gamma_dist d)) (fun rate => pdf (Gamma_dist (mkGamma alpha rate)) x)
    (pdf (CompoundGamma_dist (gamma_known_shape_predictive d alpha)) x).
Proof.
  destruct d as [a b]; simpl Gamma_alpha; simpl Gamma_beta. intros Ha Hb Hal Hx.
  pose proof (Gamma_fun_pos a Ha). pose proof (Gamma_fun_pos alpha Hal).
  apply (marginal_kernel _ _ _ ends_pos _ _ (fun t => Rpower t (alpha + a - 1) * exp (- ((x + b) * t)))
     (Rpower x (alpha - 1) / Gamma_fun alpha * (Rpower b a / Gamma_fun a)) (Gamma_fun (alpha + a) / Rpower (x + b) (alpha + a))).
  - intros t Ht. unfold Gamma_dist; simpl Gamma_alpha; simpl Gamma_beta.
    change (ndiv (nlit 1) b) with (1 / b). change (ndiv (nlit 1) t) with (1 / t).
    rewrite !gamma_pdf by auto.
    replace (alpha + a - 1) with (alpha + (a - 1)) by ring.
    replace (- ((x + b) * t)) with (- (t * x) + - (b * t)) by ring.
    rewrite exp_plus, Rpower_plus. unfold Rdiv. ring.
  - apply is_RInt_gen_Gamma_scaled; lra.
  - simpl. unfold compound_gamma_pdf. simpl.
    rewrite Beta_fun_Gamma by auto.
    replace (0 - alpha - a) with (- (alpha + a)) by ring. rewrite Rpower_Ropp.
    replace (1 + x / b) with ((x + b) / b) by (field; lra).
    rewrite !Rpower_div_base by lra. rewrite (Rpower_pred b alpha), (Rpower_plus alpha a b) by auto.
    pose proof (Gamma_fun_pos (alpha + a) ltac:(lra)).
    assert (0 < Rpower b a) by apply Rpower_pos. assert (0 < Rpower b alpha) by apply Rpower_pos.
    assert (0 < Rpower (x + b) (alpha + a)) by apply Rpower_pos.
    field. repeat split; lra.
Qed.

(** C25 *)
Lemma normal_normal_marginal (m s w x : R) : 0 < s -> 0 < w ->
  marginal Fminf Finf (pdf (S_norm m s)) (fun t => pdf (S_norm t w) x) (pdf (S_norm m (sqrt (w ^ 2 + s ^ 2))) x).
Proof.
  intros Hs Hw. pose proof sqrt_2pi_pos. pose proof PI_RGT_0.
  assert (Hs2 : 0 < s ^ 2) by nra. assert (Hw2 : 0 < w ^ 2) by nra.
  set (p := / w ^ 2). set (q := / s ^ 2).
  assert (Hp : 0 < p) by now apply Rinv_0_lt_compat. assert (Hq : 0 < q) by now apply Rinv_0_lt_compat.
  apply (marginal_kernel _ _ _ ends_line _ _ (fun t => exp (- ((p + q) * (t - (p * x + q * m) / (p + q)) ^ 2) / 2))
     (/ (w * sqrt (2 * PI)) * / (s * sqrt (2 * PI)) * exp (- (p * q / (p + q) * (x - m) ^ 2) / 2)) (sqrt (2 * PI / (p + q)))).
  - intros t _. rewrite !norm_pdf by auto.
    match goal with |- ?a * exp ?e1 * (?b * exp ?e2) = ?a * ?b * exp ?e3 * exp ?e4 =>
      transitivity (a * b * exp (e1 + e2)); [rewrite exp_plus; ring|replace (e1 + e2) with (e3 + e4); [rewrite exp_plus; ring|]] end.
    pose proof (complete_square p q x m t ltac:(lra)) as Hc.
    replace (- (x - t) ^ 2 / (2 * w ^ 2) + - (t - m) ^ 2 / (2 * s ^ 2)) with (- (p * (t - x) ^ 2 + q * (t - m) ^ 2) / 2).
    rewrite Hc. field. lra. unfold p, q. field. lra.
  - apply is_RInt_gen_gauss_prec. lra.
  - rewrite norm_pdf. 2: apply sqrt_lt_R0; lra. rewrite pow2_sqrt by lra.
    assert (Hpq : p + q = (w ^ 2 + s ^ 2) / (w ^ 2 * s ^ 2)) by (unfold p, q; field; lra).
    replace (- (p * q / (p + q) * (x - m) ^ 2) / 2) with (- (x - m) ^ 2 / (2 * (w ^ 2 + s ^ 2))).
    2:{ rewrite Hpq. unfold p, q. field. repeat split; nra. }
    rewrite Hpq.
    replace (2 * PI / ((w ^ 2 + s ^ 2) / (w ^ 2 * s ^ 2))) with (2 * PI * ((w * s) ^ 2 / (w ^ 2 + s ^ 2))) by (field; nra).
    assert (0 <= (w * s) ^ 2 / (w ^ 2 + s ^ 2)) by (apply Rmult_le_pos; [apply pow2_ge_0|left; apply Rinv_0_lt_compat; nra]).
    rewrite (sqrt_mult (2 * PI)) by lra.
    rewrite sqrt_div_alt by nra. rewrite sqrt_pow2 by nra.
    assert (0 < sqrt (w ^ 2 + s ^ 2)) by (apply sqrt_lt_R0; nra).
    field. repeat split; lra.
Qed.

Lemma normal_known_variance_predictive_marginal (d : Normal R) (var x : R) : 0 < Normal_sigma d -> 0 < var ->
  marginal Fminf Finf (pdf (Normal_dist d)) (fun m => pdf (Normal_dist (mkNormal m (sqrt var))) x)
    (pdf (Normal_dist (normal_known_variance_predictive var d)) x).
Proof.
  destruct d as [m s]; simpl Normal_sigma. intros Hs Hv.
  pose proof (normal_normal_marginal m s (sqrt var) x Hs (sqrt_lt_R0 _ Hv)) as H.
  rewrite pow2_sqrt in H by lra. exact H.
Qed.

(** C26 *)
Lemma t_from_invgamma (a b mu x c : R) : 0 < a -> 0 < b -> 0 < c ->
  marginal Fpos0 Finf (pdf (S_invgamma_scale a b)) (fun v => pdf (S_norm mu (sqrt (c * v))) x)
    (pdf (S_t (2 * a) mu (sqrt (b * c / a))) x).
Proof.
  intros Ha Hb Hc. pose proof (Gamma_fun_pos a Ha) as HG. pose proof (Gamma_fun_pos (a + /2) ltac:(lra)) as HG2.
  pose proof sqrt_2pi_pos. pose proof PI_RGT_0. assert (Hsc : 0 < sqrt c) by now apply sqrt_lt_R0.
  set (d2 := (x - mu) ^ 2 / (2 * c)).
  assert (Hd : 0 <= d2) by (apply Rmult_le_pos; [apply pow2_ge_0|left; apply Rinv_0_lt_compat; lra]).
  apply (marginal_kernel _ _ _ ends_pos _ _ (fun v => Rpower v (- (a + /2) - 1) * exp (- ((b + d2) / v)))
     (/ (sqrt c * sqrt (2 * PI)) * (Rpower b a / Gamma_fun a)) (Gamma_fun (a + /2) / Rpower (b + d2) (a + /2))).
  - intros v Hv. rewrite norm_pdf by (apply sqrt_lt_R0; nra). rewrite invgamma_pdf by auto.
    rewrite pow2_sqrt by nra. rewrite sqrt_mult by lra.
    replace (- (a + /2) - 1) with (- a - 1 + - / 2) by ring. rewrite Rpower_plus, (Rpower_Ropp v (/2)), Rpower_sqrt by auto.
    replace (- ((b + d2) / v)) with (- (x - mu) ^ 2 / (2 * (c * v)) + - (b / v)) by (unfold d2; field; lra).
    rewrite exp_plus. assert (0 < sqrt v) by now apply sqrt_lt_R0. field. lra.
  - apply is_RInt_gen_InvGamma; lra.
  - assert (Hbca : 0 < b * c / a) by (apply Rdiv_lt_0_compat; nra).
    rewrite t_pdf; try lra. 2: now apply sqrt_lt_R0.
    rewrite pow2_sqrt by lra. replace (2 * a / 2) with a by field.
    rewrite Beta_fun_Gamma, Gamma_half by lra. replace (/2 + a) with (a + /2) by ring.
    replace (1 + (x - mu) ^ 2 / (2 * a * (b * c / a))) with ((b + d2) / b) by (unfold d2; field; lra).
    replace ((2 * a + 1) / 2) with (a + /2) by field.
    rewrite Rpower_Ropp, Rpower_div_base by lra. rewrite (Rpower_plus a (/2) b), (Rpower_sqrt b) by auto.
    assert (Hs : sqrt (b * c / a) * sqrt (2 * a) = sqrt b * (sqrt c * sqrt 2)).
    { rewrite <- !sqrt_mult by lra. f_equal. field. lra. }
    rewrite (sqrt_mult 2 PI) by lra.
    assert (0 < sqrt 2) by (apply sqrt_lt_R0; lra). assert (0 < sqrt PI) by (apply sqrt_lt_R0; lra).
    assert (0 < sqrt b) by (apply sqrt_lt_R0; lra). assert (0 < Rpower b a) by apply Rpower_pos.
    assert (0 < Rpower (b + d2) (a + / 2)) by apply Rpower_pos.
    rewrite Hs. field. repeat split; lra.
Qed.

Lemma normal_known_mean_predictive_marginal (d : VariancePrior R) (mu x : R) : variance_ok d ->
  marginal Fpos0 Finf (pdf (variance_dist d)) (fun v => pdf (Normal_dist (mkNormal mu (sqrt v))) x)
    (pdf (StudentT_dist (normal_known_mean_predictive mu d)) x).
Proof.
  assert (H0 : forall a b, 0 < a -> 0 < b ->
    marginal Fpos0 Finf (pdf (S_invgamma_scale a b)) (fun v => pdf (Normal_dist (mkNormal mu (sqrt v))) x)
     (pdf (S_t (2 * a) mu (sqrt (b / a))) x)).
  { intros a b Ha Hb. pose proof (t_from_invgamma a b mu x 1 Ha Hb Rlt_0_1) as H. rewrite Rmult_1_r in H.
    unfold marginal in *. revert H. apply (is_RInt_gen_ext_on _ _ _ ends_pos). intros v Hv. now rewrite Rmult_1_l. }
  destruct d as [[a b]|[nu s2]]; simpl; intros [H1 H2].
  - now apply H0.
  - unfold ScaledInverseChiSquared_dist; simpl. apply H0. lra. apply Rmult_lt_0_compat; nra.
Qed.

(** C09 for both families *)
Lemma normal_known_mean_bayes (prior : VariancePrior R) (mu : R) (data : list R) : variance_ok prior ->
  bayes_posterior Fpos0 Finf (pdf (variance_dist prior))
    (likelihood (fun v x => pdf (Normal_dist (mkNormal mu (sqrt v))) x) data)
    (pdf (variance_dist (normal_known_mean (sumR data) (sumR (map (fun x => x ^ 2) data)) (INR (length data)) mu prior))).
Proof.
  destruct prior as [ig|[nu s2]]; simpl; intros [H1 H2].
  - now apply normal_known_mean_ig_bayes.
  - assert (Hb : 0 < nu * s2 / 2) by nra.
    pose proof (normal_known_mean_ig_bayes (mkInverseGamma (nu / 2) (nu * s2 / 2)) mu data ltac:(simpl; lra) Hb) as H.
    unfold ScaledInverseChiSquared_to_inverse_gamma; simpl.
    set (post := normal_known_mean_inverse_gamma_prior _ _ _ _ _) in *.
    assert (Hn : 0 <= INR (length data)) by apply pos_INR.
    assert (Hpa : 0 < InverseGamma_alpha post) by (unfold post; simpl; lra).
    unfold InverseGamma_dist in H. unfold ScaledInverseChiSquared_dist, ScaledInverseChiSquared_from_inverse_gamma.
    simpl in *.
    match goal with |- context [pdf (S_invgamma_scale (?a * 2 / 2) (?a * 2 * (?b * 2 / (?a * 2)) / 2))] =>
      replace (a * 2 / 2) with a by field;
      replace (a * 2 * (b * 2 / (a * 2)) / 2) with b by (field; lra) end. exact H.
Qed.
