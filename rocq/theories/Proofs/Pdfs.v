(** The scipy densities in the usual textbook form. *)

From Coq Require Import Reals Lra Psatz ZArith List Lia.
From Coquelicot Require Import Coquelicot.
From Verif Require Import Model.Num Model.Dists Model.ScipyDist Spec.Special Spec.Densities Spec.Bayes.
From Verif Require Import Analysis.Improper Analysis.RealAux Analysis.GammaBeta Analysis.GammaFacts Analysis.Gauss.
Open Scope R_scope.

Lemma ltb_true x y : x < y -> ltb x y = true.
Proof. intros. unfold ltb. destruct (Rlt_dec x y); auto; lra. Qed.
Lemma ltb_false x y : y <= x -> ltb x y = false.
Proof. intros. unfold ltb. destruct (Rlt_dec x y); auto; lra. Qed.
Lemma leb_true x y : x <= y -> leb x y = true.
Proof. intros. unfold leb. destruct (Rle_dec x y); auto; lra. Qed.
Lemma leb_false x y : y < x -> leb x y = false.
Proof. intros. unfold leb. destruct (Rle_dec x y); auto; lra. Qed.

Lemma Int_part_IZR z : Int_part (IZR z) = z.
Proof.
  unfold Int_part. rewrite <- (tech_up (IZR z) (z + 1)).
  - lia.
  - rewrite plus_IZR. lra.
  - rewrite plus_IZR. lra.
Qed.

Lemma Rnat_INR n : Rnat (INR n) = n.
Proof. unfold Rnat. rewrite INR_IZR_INZ, Int_part_IZR. apply Nat2Z.id. Qed.

Lemma div_pos_iff x s : 0 < s -> (0 < x / s <-> 0 < x).
Proof.
  intros Hs. split; intros H.
  - apply Rmult_lt_compat_r with (r := s) in H; auto. unfold Rdiv in H. rewrite Rmult_assoc, Rinv_l in H; lra.
  - apply Rdiv_lt_0_compat; auto.
Qed.

Lemma div_nonneg_iff x s : 0 < s -> (0 <= x / s <-> 0 <= x).
Proof.
  intros Hs. split; intros H.
  - apply Rmult_le_compat_r with (r := s) in H; try lra. unfold Rdiv in H. rewrite Rmult_assoc, Rinv_l in H; lra.
  - apply Rmult_le_pos; auto. left. now apply Rinv_0_lt_compat.
Qed.

(** *** Beta *)
Lemma beta_pdf a b t : 0 < t < 1 ->
  pdf (S_beta a b) t = / Beta_fun a b * (Rpower t (a - 1) * Rpower (1 - t) (b - 1)).
Proof.
  intros Ht. simpl. unfold std_beta. rewrite !ltb_true by lra. simpl. unfold Rdiv. ring.
Qed.

Lemma beta_pdf_out a b t : ~ (0 < t < 1) -> pdf (S_beta a b) t = 0.
Proof.
  intros Ht. simpl. unfold std_beta, ltb. destruct (Rlt_dec 0 t), (Rlt_dec t 1); simpl; auto. lra.
Qed.

(** *** Gamma, shape [a] and scale [1 / b] *)
Lemma gamma_pdf a b t : 0 < b -> 0 < t ->
  pdf (S_gamma_scale a (1 / b)) t = Rpower b a / Gamma_fun a * (Rpower t (a - 1) * exp (- (b * t))).
Proof.
  intros Hb Ht. simpl. unfold locscale, std_gamma.
  replace ((t - 0) / (1 / b)) with (b * t) by (field; lra).
  rewrite ltb_true by nra. simpl.
  rewrite Rpower_mult_base, (Rpower_pred b a) by auto.
  replace (1 / b) with (/ b) by (field; lra). unfold Rdiv. rewrite Rinv_inv.
  transitivity (Rpower b a * / Gamma_fun a * (Rpower t (a - 1) * exp (- (b * t))) * (/ b * b)). ring.
  rewrite Rinv_l by lra. ring.
Qed.

Lemma gamma_pdf_out a b t : 0 < b -> t <= 0 -> pdf (S_gamma_scale a (1 / b)) t = 0.
Proof.
  intros Hb Ht. simpl. unfold locscale, std_gamma.
  replace ((t - 0) / (1 / b)) with (b * t) by (field; lra).
  rewrite ltb_false by nra. simpl. unfold Rdiv; ring.
Qed.

(** *** Inverse gamma, shape [a] and scale [b] *)
Lemma invgamma_pdf a b v : 0 < b -> 0 < v ->
  pdf (S_invgamma_scale a b) v = Rpower b a / Gamma_fun a * (Rpower v (- a - 1) * exp (- (b / v))).
Proof.
  intros Hb Hv. simpl. unfold locscale, std_invgamma. rewrite Rminus_0_r.
  rewrite ltb_true by now apply Rdiv_lt_0_compat. simpl.
  replace (1 / (v / b)) with (b / v) by (field; lra).
  rewrite Rpower_div_base by auto.
  rewrite (Rpower_pred b (- a) Hb), Rpower_Ropp. unfold Rdiv at 2 3 4.
  rewrite !Rinv_mult, !Rinv_inv.
  transitivity (Rpower b a / Gamma_fun a * (Rpower v (- a - 1) * exp (- (b / v))) * (b * / b)).
  unfold Rdiv; ring. rewrite Rinv_r by lra. ring.
Qed.

Lemma invgamma_pdf_out a b v : 0 < b -> v <= 0 -> pdf (S_invgamma_scale a b) v = 0.
Proof.
  intros Hb Hv. simpl. unfold locscale, std_invgamma. rewrite Rminus_0_r.
  rewrite ltb_false. simpl. unfold Rdiv; ring.
  destruct (Rle_dec (v / b) 0); auto. exfalso.
  assert (0 < v / b) by lra. apply div_pos_iff in H; lra.
Qed.

(** *** Normal *)
Lemma sqrt_2pi_pos : 0 < sqrt (2 * PI).
Proof. apply sqrt_lt_R0. pose proof PI_RGT_0. lra. Qed.

Lemma norm_pdf m s x : 0 < s ->
  pdf (S_norm m s) x = / (s * sqrt (2 * PI)) * exp (- (x - m) ^ 2 / (2 * s ^ 2)).
Proof.
  intros Hs. simpl. unfold locscale, std_norm. pose proof sqrt_2pi_pos.
  replace (- ((x - m) / s) ^ 2 / 2) with (- (x - m) ^ 2 / (2 * s ^ 2)) by (field; lra).
  simpl. field. lra.
Qed.

(** *** Others *)
Lemma pareto_pdf b s x : 0 < s -> s <= x ->
  pdf (S_pareto_scale b s) x = b * Rpower s b / Rpower x (b + 1).
Proof.
  intros Hs Hx. simpl. unfold locscale, std_pareto. rewrite Rminus_0_r.
  rewrite leb_true. 2: apply Rle_div_r; lra. simpl.
  rewrite Rpower_div_base by lra. rewrite (Rpower_succ s b Hs).
  field. repeat split; try lra; apply Rgt_not_eq, Rpower_pos.
Qed.

Lemma pareto_pdf_out b s x : 0 < s -> x < s -> pdf (S_pareto_scale b s) x = 0.
Proof.
  intros Hs Hx. simpl. unfold locscale, std_pareto. rewrite Rminus_0_r.
  rewrite leb_false. 2: apply Rlt_div_l; lra. simpl. unfold Rdiv; ring.
Qed.

Lemma expon_pdf s x : 0 < s -> 0 <= x -> pdf (S_expon_scale s) x = exp (- (x / s)) / s.
Proof.
  intros Hs Hx. simpl. unfold locscale, std_expon. rewrite Rminus_0_r.
  rewrite leb_true. reflexivity. now apply div_nonneg_iff.
Qed.

Lemma uniform_pdf l s x : 0 < s -> l <= x <= l + s -> pdf (S_uniform l s) x = / s.
Proof.
  intros Hs Hx. simpl. unfold locscale, std_uniform.
  rewrite (leb_true 0) by (apply div_nonneg_iff; lra).
  rewrite leb_true. simpl. unfold Rdiv; ring. apply Rle_div_l; lra.
Qed.

Lemma uniform_pdf_out l s x : 0 < s -> x < l \/ l + s < x -> pdf (S_uniform l s) x = 0.
Proof.
  intros Hs Hx. simpl. unfold locscale, std_uniform. destruct Hx as [Hx|Hx].
  - rewrite leb_false. simpl. unfold Rdiv; ring.
    apply Rnot_le_lt. intros H. apply div_nonneg_iff in H; lra.
  - rewrite (leb_false _ 1). rewrite Bool.andb_false_r. simpl. unfold Rdiv; ring. apply Rlt_div_r; lra.
Qed.

Lemma lomax_pdf c s x : 0 < s -> 0 <= x -> pdf (S_lomax_scale c s) x = c * Rpower s c / Rpower (s + x) (c + 1).
Proof.
  intros Hs Hx. simpl. unfold locscale, std_lomax. rewrite Rminus_0_r.
  rewrite leb_true by now apply div_nonneg_iff. simpl.
  replace (1 + x / s) with ((s + x) / s) by (field; lra).
  rewrite Rpower_div_base by lra. rewrite (Rpower_succ s c Hs).
  field. repeat split; try lra; apply Rgt_not_eq, Rpower_pos.
Qed.

Lemma weibull_pdf c s x : 0 < s -> 0 < x ->
  pdf (S_weibull_min_scale c s) x = c * Rpower x (c - 1) / Rpower s c * exp (- (Rpower x c / Rpower s c)).
Proof.
  intros Hs Hx. simpl. unfold locscale, std_weibull_min. rewrite Rminus_0_r.
  rewrite ltb_true by now apply Rdiv_lt_0_compat. simpl.
  rewrite !Rpower_div_base by lra. rewrite (Rpower_pred s c Hs).
  field. split; try lra. apply Rgt_not_eq, Rpower_pos.
Qed.

Lemma t_pdf df m s x : 0 < df -> 0 < s ->
  pdf (S_t df m s) x =
  / (s * sqrt df * Beta_fun (/2) (df / 2)) * Rpower (1 + (x - m) ^ 2 / (df * s ^ 2)) (- ((df + 1) / 2)).
Proof.
  intros Hd Hs. simpl. unfold locscale, std_t.
  rewrite Beta_fun_Gamma, Gamma_half by lra.
  replace (((x - m) / s) ^ 2 / df) with ((x - m) ^ 2 / (df * s ^ 2)) by (field; lra).
  replace (/ 2 + df / 2) with ((df + 1) / 2) by field.
  rewrite sqrt_mult by (pose proof PI_RGT_0; lra). simpl.
  assert (0 < sqrt PI) by (apply sqrt_lt_R0; apply PI_RGT_0).
  assert (0 < sqrt df) by now apply sqrt_lt_R0.
  pose proof (Gamma_fun_pos (df / 2) ltac:(lra)). pose proof (Gamma_fun_pos ((df + 1) / 2) ltac:(lra)).
  field. lra.
Qed.

(** *** Mass functions *)
Lemma binom_pmf n p k : (k <= n)%nat ->
  pmf (S_binom (INR n) p) (Z.of_nat k) = choose (INR n) k * p ^ k * (1 - p) ^ (n - k).
Proof.
  intros H. unfold pmf. rewrite Nat2Z.id, Rnat_INR.
  replace (0 <=? Z.of_nat k)%Z with true by (symmetry; apply Z.leb_le; lia).
  replace (k <=? n)%nat with true by (symmetry; apply Nat.leb_le; lia). reflexivity.
Qed.

Lemma nbinom_pmf n p k :
  pmf (S_nbinom n p) (Z.of_nat k) = rising n k / INR (fact k) * Rpower p n * (1 - p) ^ k.
Proof.
  unfold pmf. rewrite Nat2Z.id.
  replace (0 <=? Z.of_nat k)%Z with true by (symmetry; apply Z.leb_le; lia). reflexivity.
Qed.

Lemma poisson_pmf mu k : pmf (S_poisson mu) (Z.of_nat k) = exp (- mu) * mu ^ k / INR (fact k).
Proof.
  unfold pmf. rewrite Nat2Z.id.
  replace (0 <=? Z.of_nat k)%Z with true by (symmetry; apply Z.leb_le; lia). reflexivity.
Qed.

Lemma geom_pmf p loc k : (1 <= k)%nat ->
  pmf (S_geom_loc p (IZR loc)) (Z.of_nat k + loc) = (1 - p) ^ (k - 1) * p.
Proof.
  intros H. unfold pmf. rewrite Int_part_IZR.
  replace (Z.of_nat k + loc - loc)%Z with (Z.of_nat k) by lia.
  replace (1 <=? Z.of_nat k)%Z with true by (symmetry; apply Z.leb_le; lia).
  rewrite Nat2Z.id. reflexivity.
Qed.

(** *** Positivity of combinatorial factors *)
Lemma rising_pos a k : 0 < a -> 0 < rising a k.
Proof.
  intros Ha. induction k; simpl. lra. apply Rmult_lt_0_compat; auto. pose proof (pos_INR k). lra.
Qed.

Lemma falling_pos n k : (k <= n)%nat -> 0 < falling (INR n) k.
Proof.
  induction k; simpl; intros H. lra.
  apply Rmult_lt_0_compat. apply IHk; lia.
  assert (INR k < INR n) by (apply lt_INR; lia). lra.
Qed.

Lemma fact_pos k : 0 < INR (fact k).
Proof. apply INR_fact_lt_0. Qed.

Lemma choose_pos n k : (k <= n)%nat -> 0 < choose (INR n) k.
Proof. intros. apply Rdiv_lt_0_compat. now apply falling_pos. apply fact_pos. Qed.
