(** Evidence moves the posteriors in the direction it points. *)

From Coq Require Import Reals Lra Lia ZArith.
From Coquelicot Require Import Coquelicot.
From Verif Require Import Model.Num Model.Py Model.Dists Model.ScipyDist Model.Models.
From Verif Require Import Spec.Special Spec.Densities Spec.Bayes Spec.Joint Spec.Normalised Spec.Limits Spec.Dominance.
From Verif Require Import Analysis.RealAux Analysis.Improper Analysis.GammaBeta Analysis.GammaFacts Analysis.Dominance.
From Verif Require Import Proofs.Pdfs Proofs.Normalised Proofs.Conj Proofs.Refute Proofs.LimitModels.
From Coq Require Import List.
Import ListNotations.
Open Scope R_scope.

Lemma exp_lt a b c d : a + b < c + d -> exp a * exp b < exp c * exp d.
Proof. intros H. rewrite <- !exp_plus. now apply exp_increasing. Qed.

Lemma Rpower_exp x a : Rpower x a = exp (a * ln x).
Proof. reflexivity. Qed.

Lemma pos_l t : 0 < t -> exists c, 0 < c /\ c < t.
Proof. intros H. exists (t / 2). lra. Qed.
Lemma pos_r t : 0 < t -> exists c, 0 < c /\ t < c.
Proof. intros H. exists (t + 1). lra. Qed.

Lemma gamma_up a1 b1 a2 b2 : 0 < a1 -> 0 < b1 -> 0 < a2 -> 0 < b2 ->
  a1 <= a2 -> b2 <= b1 -> a1 < a2 \/ b2 < b1 ->
  moved_up Fpos0 positive (pdf (Gamma_dist (mkGamma a1 b1))) (pdf (Gamma_dist (mkGamma a2 b2))).
Proof.
  intros Ha1 Hb1 Ha2 Hb2 La Lb L.
  assert (P : forall a b, 0 < a -> 0 < b -> 0 < Rpower b a / Gamma_fun a).
  { intros. apply Rdiv_lt_0_compat; [apply exp_pos|now apply Gamma_fun_pos]. }
  assert (C : forall a b, cont_on (fun t => Rpower t (a - 1) * exp (- (b * t))) (fun t => 0 < t)).
  { intros a b x Hx. apply (continuous_mult (fun t => Rpower t (a-1)) (fun t => exp (- (b * t)))).
    now apply continuous_Rpower. apply (ex_derive_continuous (V:=R_NormedModule)). auto_derive; auto. }
  apply (kernels_increasing _ _ _ ends_pos pos_l pos_r _ _ (fun t => Rpower t (a1 - 1) * exp (- (b1 * t)))
     (fun t => Rpower t (a2 - 1) * exp (- (b2 * t))) (Rpower b1 a1 / Gamma_fun a1) (Rpower b2 a2 / Gamma_fun a2)); auto.
  - intros x Hx. now apply gamma_pdf.
  - intros x Hx. now apply gamma_pdf.
  - intros x Hx. apply Rmult_lt_0_compat; apply exp_pos.
  - intros x Hx. apply Rmult_lt_0_compat; apply exp_pos.
  - now apply (Gamma_density (mkGamma a1 b1)).
  - now apply (Gamma_density (mkGamma a2 b2)).
  - intros x y Hx Hy Hxy. rewrite !Rpower_exp, <- !exp_plus. apply exp_increasing.
    pose proof (ln_increasing x y Hx Hxy) as Hl.
    assert (Q : 0 < (a2 - a1) * (ln y - ln x) + (b1 - b2) * (y - x)); [|nra].
    destruct L as [L|L].
    + assert (0 < (a2 - a1) * (ln y - ln x)) by (apply Rmult_lt_0_compat; lra).
      assert (0 <= (b1 - b2) * (y - x)) by (apply Rmult_le_pos; lra). lra.
    + assert (0 <= (a2 - a1) * (ln y - ln x)) by (apply Rmult_le_pos; lra).
      assert (0 < (b1 - b2) * (y - x)) by (apply Rmult_lt_0_compat; lra). lra.
Qed.

Lemma inverse_gamma_up a1 b1 a2 b2 : 0 < a1 -> 0 < b1 -> 0 < a2 -> 0 < b2 ->
  a2 <= a1 -> b1 <= b2 -> a2 < a1 \/ b1 < b2 ->
  moved_up Fpos0 positive (pdf (InverseGamma_dist (mkInverseGamma a1 b1))) (pdf (InverseGamma_dist (mkInverseGamma a2 b2))).
Proof.
  intros Ha1 Hb1 Ha2 Hb2 La Lb L.
  assert (P : forall a b, 0 < a -> 0 < b -> 0 < Rpower b a / Gamma_fun a).
  { intros. apply Rdiv_lt_0_compat; [apply exp_pos|now apply Gamma_fun_pos]. }
  assert (C : forall a b, cont_on (fun t => Rpower t (- a - 1) * exp (- (b / t))) (fun t => 0 < t)).
  { intros a b x Hx. apply (continuous_mult (fun t => Rpower t (- a - 1)) (fun t => exp (- (b / t)))).
    now apply continuous_Rpower. apply (ex_derive_continuous (V:=R_NormedModule)). auto_derive; lra. }
  apply (kernels_increasing _ _ _ ends_pos pos_l pos_r _ _ (fun t => Rpower t (- a1 - 1) * exp (- (b1 / t)))
     (fun t => Rpower t (- a2 - 1) * exp (- (b2 / t))) (Rpower b1 a1 / Gamma_fun a1) (Rpower b2 a2 / Gamma_fun a2)); auto.
  - intros x Hx. now apply invgamma_pdf.
  - intros x Hx. now apply invgamma_pdf.
  - intros x Hx. apply Rmult_lt_0_compat; apply exp_pos.
  - intros x Hx. apply Rmult_lt_0_compat; apply exp_pos.
  - now apply (InverseGamma_density (mkInverseGamma a1 b1)).
  - now apply (InverseGamma_density (mkInverseGamma a2 b2)).
  - intros x y Hx Hy Hxy. rewrite !Rpower_exp, <- !exp_plus. apply exp_increasing.
    pose proof (ln_increasing x y Hx Hxy) as Hl. pose proof (Rinv_lt_contravar x y ltac:(nra) Hxy) as Hi. unfold Rdiv.
    assert (Q : 0 < (a1 - a2) * (ln y - ln x) + (b2 - b1) * (/ x - / y)); [|nra].
    destruct L as [L|L].
    + assert (0 < (a1 - a2) * (ln y - ln x)) by (apply Rmult_lt_0_compat; lra).
      assert (0 <= (b2 - b1) * (/ x - / y)) by (apply Rmult_le_pos; lra). lra.
    + assert (0 <= (a1 - a2) * (ln y - ln x)) by (apply Rmult_le_pos; lra).
      assert (0 < (b2 - b1) * (/ x - / y)) by (apply Rmult_lt_0_compat; lra). lra.
Qed.

Lemma beta_up a1 b1 a2 b2 : 0 < a1 -> 0 < b1 -> 0 < a2 -> 0 < b2 ->
  a1 <= a2 -> b2 <= b1 -> a1 < a2 \/ b2 < b1 ->
  moved_up Fpos0 unit_interval (pdf (Beta_dist (mkBeta a1 b1))) (pdf (Beta_dist (mkBeta a2 b2))).
Proof.
  intros Ha1 Hb1 Ha2 Hb2 La Lb L.
  assert (P : forall a b, 0 < a -> 0 < b -> 0 < / Beta_fun a b) by (intros; apply Rinv_0_lt_compat; now apply Beta_fun_pos).
  apply (kernels_increasing _ _ _ (ends_open 0 1 ltac:(lra))) with
    (kf := fun t => Rpower t (a1 - 1) * Rpower (1 - t) (b1 - 1)) (kg := fun t => Rpower t (a2 - 1) * Rpower (1 - t) (b2 - 1))
    (cf := / Beta_fun a1 b1) (cg := / Beta_fun a2 b2); auto.
  - intros t Ht. exists (t / 2). lra.
  - intros t Ht. exists ((t + 1) / 2). lra.
  - intros x Hx. now apply beta_pdf.
  - intros x Hx. now apply beta_pdf.
  - apply cont_beta_integrand.
  - apply cont_beta_integrand.
  - intros x Hx. apply Rmult_lt_0_compat; apply exp_pos.
  - intros x Hx. apply Rmult_lt_0_compat; apply exp_pos.
  - now apply (Beta_density (mkBeta a1 b1)).
  - now apply (Beta_density (mkBeta a2 b2)).
  - intros x y Hx Hy Hxy. rewrite !Rpower_exp, <- !exp_plus. apply exp_increasing.
    pose proof (ln_increasing x y ltac:(lra) Hxy) as Hl. pose proof (ln_increasing (1 - y) (1 - x) ltac:(lra) ltac:(lra)) as Hi.
    assert (Q : 0 < (a2 - a1) * (ln y - ln x) + (b1 - b2) * (ln (1 - x) - ln (1 - y))); [|nra].
    destruct L as [L|L].
    + assert (0 < (a2 - a1) * (ln y - ln x)) by (apply Rmult_lt_0_compat; lra).
      assert (0 <= (b1 - b2) * (ln (1 - x) - ln (1 - y))) by (apply Rmult_le_pos; lra). lra.
    + assert (0 <= (a2 - a1) * (ln y - ln x)) by (apply Rmult_le_pos; lra).
      assert (0 < (b1 - b2) * (ln (1 - x) - ln (1 - y))) by (apply Rmult_lt_0_compat; lra). lra.
Qed.

Lemma normal_up m1 m2 s : 0 < s -> m1 < m2 ->
  moved_up Fminf any_real (pdf (Normal_dist (mkNormal m1 s))) (pdf (Normal_dist (mkNormal m2 s))).
Proof.
  intros Hs Hm.
  assert (P : 0 < / (s * sqrt (2 * PI))) by (apply Rinv_0_lt_compat, Rmult_lt_0_compat; auto using sqrt_2pi_pos).
  assert (C : forall m, cont_on (fun x => exp (- (x - m) ^ 2 / (2 * s ^ 2))) (fun _ => True)).
  { intros m x Hx. apply (ex_derive_continuous (V:=R_NormedModule)). auto_derive; auto. }
  apply (kernels_increasing _ _ _ ends_line) with
    (kf := fun x => exp (- (x - m1) ^ 2 / (2 * s ^ 2))) (kg := fun x => exp (- (x - m2) ^ 2 / (2 * s ^ 2)))
    (cf := / (s * sqrt (2 * PI))) (cg := / (s * sqrt (2 * PI))); auto.
  - intros t _. exists (t - 1). split; auto; lra.
  - intros t _. exists (t + 1). split; auto; lra.
  - intros x Hx. now apply norm_pdf.
  - intros x Hx. now apply norm_pdf.
  - intros. apply exp_pos.
  - intros. apply exp_pos.
  - now apply (Normal_density (mkNormal m1 s)).
  - now apply (Normal_density (mkNormal m2 s)).
  - intros x y _ _ Hxy. rewrite <- !exp_plus. apply exp_increasing.
    assert (Q : 0 < (m2 - m1) * (y - x) * / s ^ 2).
    { apply Rmult_lt_0_compat. apply Rmult_lt_0_compat; lra. apply Rinv_0_lt_compat. now apply pow_lt. }
    enough (E : - (y - m2) ^ 2 / (2 * s ^ 2) + - (x - m1) ^ 2 / (2 * s ^ 2) -
      (- (x - m2) ^ 2 / (2 * s ^ 2) + - (y - m1) ^ 2 / (2 * s ^ 2)) = (m2 - m1) * (y - x) * / s ^ 2) by lra.
    field. lra.
Qed.

(** ** The models *)

Lemma binomial_up (n1 x1 n2 x2 : R) (prior : Beta R) : 0 < Beta_alpha prior -> 0 < Beta_beta prior ->
  0 <= x1 <= x2 -> 0 <= n2 - x2 <= n1 - x1 -> x1 < x2 \/ n2 - x2 < n1 - x1 ->
  moved_up Fpos0 unit_interval (pdf (Beta_dist (binomial_beta n1 x1 prior))) (pdf (Beta_dist (binomial_beta n2 x2 prior))).
Proof.
  destruct prior as [a b]. cbn [Beta_alpha Beta_beta]. intros Ha Hb Hx Hf L.
  apply (beta_up (a + x1) (b + (n1 - x1)) (a + x2) (b + (n2 - x2))); lra.
Qed.

Lemma negative_binomial_down (r n x1 x2 : R) (prior : Beta R) : 0 < Beta_alpha prior -> 0 < Beta_beta prior -> 0 < r -> 0 <= n -> 0 <= x1 < x2 ->
  moved_up Fpos0 unit_interval (pdf (Beta_dist (negative_binomial_beta r n x2 prior))) (pdf (Beta_dist (negative_binomial_beta r n x1 prior))).
Proof.
  destruct prior as [a b]. cbn [Beta_alpha Beta_beta]. intros Ha Hb Hr Hn Hx.
  assert (0 <= r * n) by (apply Rmult_le_pos; lra).
  apply (beta_up (a + r * n) (b + x2) (a + r * n) (b + x1)); lra.
Qed.

Lemma geometric_down (x1 x2 n : R) (one_start : bool) (prior : Beta R) : 0 < Beta_alpha prior -> 0 < Beta_beta prior -> 0 <= n ->
  (if one_start then n else 0) <= x1 < x2 ->
  moved_up Fpos0 unit_interval (pdf (Beta_dist (geometric_beta x2 n prior one_start))) (pdf (Beta_dist (geometric_beta x1 n prior one_start))).
Proof.
  destruct prior as [a b]. cbn [Beta_alpha Beta_beta]. intros Ha Hb Hn Hx. destruct one_start.
  - apply (beta_up (a + n) (b + x2 - n) (a + n) (b + x1 - n)); lra.
  - apply (beta_up (a + n) (b + x2) (a + n) (b + x1)); lra.
Qed.

Lemma poisson_up (x1 n1 x2 n2 : R) (prior : Gamma R) : 0 < Gamma_alpha prior -> 0 < Gamma_beta prior ->
  0 <= x1 <= x2 -> 0 <= n2 <= n1 -> x1 < x2 \/ n2 < n1 ->
  moved_up Fpos0 positive (pdf (Gamma_dist (poisson_gamma x1 n1 prior))) (pdf (Gamma_dist (poisson_gamma x2 n2 prior))).
Proof.
  destruct prior as [a b]. cbn [Gamma_alpha Gamma_beta]. intros Ha Hb Hx Hn L.
  apply (gamma_up (a + x1) (b + n1) (a + x2) (b + n2)); lra.
Qed.

Lemma exponential_up (x1 x2 n : R) (prior : Gamma R) : 0 < Gamma_alpha prior -> 0 < Gamma_beta prior -> 0 <= n -> 0 <= x1 < x2 ->
  moved_up Fpos0 positive (pdf (Gamma_dist (exponential_gamma x1 n prior))) (pdf (Gamma_dist (exponential_gamma x2 n prior))).
Proof.
  destruct prior as [a b]. cbn [Gamma_alpha Gamma_beta]. intros Ha Hb Hn Hx.
  apply (gamma_up (a + x1) (b + n) (a + x2) (b + n)); lra.
Qed.

Lemma gamma_known_shape_down (x1 x2 n shape : R) (prior : Gamma R) : 0 < Gamma_alpha prior -> 0 < Gamma_beta prior -> 0 <= n -> 0 < shape -> 0 <= x1 < x2 ->
  moved_up Fpos0 positive (pdf (Gamma_dist (gamma_known_shape x2 n shape prior))) (pdf (Gamma_dist (gamma_known_shape x1 n shape prior))).
Proof.
  destruct prior as [a b]. cbn [Gamma_alpha Gamma_beta]. intros Ha Hb Hn Hs Hx.
  assert (0 <= n * shape) by (apply Rmult_le_pos; lra).
  apply (gamma_up (a + n * shape) (b + x2) (a + n * shape) (b + x1)); lra.
Qed.

Lemma inverse_gamma_known_rate_down (x1 x2 n shape : R) (prior : Gamma R) : 0 < Gamma_alpha prior -> 0 < Gamma_beta prior -> 0 <= n -> 0 < shape -> 0 <= x1 < x2 ->
  moved_up Fpos0 positive (pdf (Gamma_dist (inverse_gamma_known_rate x2 n shape prior))) (pdf (Gamma_dist (inverse_gamma_known_rate x1 n shape prior))).
Proof. exact (gamma_known_shape_down x1 x2 n shape prior). Qed.

Lemma pareto_down (n l1 l2 x_m : R) (prior : Gamma R) : 0 < Gamma_alpha prior -> 0 < Gamma_beta prior -> 0 <= n -> n * ln x_m <= l1 < l2 ->
  moved_up Fpos0 positive (pdf (Gamma_dist (pareto_gamma ln n l2 x_m prior))) (pdf (Gamma_dist (pareto_gamma ln n l1 x_m prior))).
Proof.
  destruct prior as [a b]. cbn [Gamma_alpha Gamma_beta]. intros Ha Hb Hn Hx.
  apply (gamma_up (a + n) (b + l2 - n * ln x_m) (a + n) (b + l1 - n * ln x_m)); lra.
Qed.

Lemma weibull_up (n x1 x2 : R) (prior : InverseGamma R) : 0 < InverseGamma_alpha prior -> 0 < InverseGamma_beta prior -> 0 <= n -> 0 <= x1 < x2 ->
  moved_up Fpos0 positive (pdf (InverseGamma_dist (weibull_inverse_gamma_known_shape n x1 prior)))
    (pdf (InverseGamma_dist (weibull_inverse_gamma_known_shape n x2 prior))).
Proof.
  destruct prior as [a b]. cbn [InverseGamma_alpha InverseGamma_beta]. intros Ha Hb Hn Hx.
  apply (inverse_gamma_up (a + n) (b + x1) (a + n) (b + x2)); lra.
Qed.

Lemma normal_known_variance_up (x1 x2 n var : R) (prior : Normal R) : 0 < Normal_sigma prior -> 0 < var -> 0 <= n -> x1 < x2 ->
  moved_up Fminf any_real (pdf (Normal_dist (normal_known_variance x1 n var prior))) (pdf (Normal_dist (normal_known_variance x2 n var prior))).
Proof.
  destruct prior as [m s]. cbn [Normal_sigma]. intros Hs Hv Hn Hx.
  assert (Ps : 0 < 1 / (s ^ 2)) by (apply Rdiv_lt_0_compat; [lra|now apply pow_lt]).
  assert (Pn : 0 <= n / var) by (apply div_nonneg; lra).
  apply (normal_up ((m / (s ^ 2) + x1 / var) / (1 / (s ^ 2) + n / var)) ((m / (s ^ 2) + x2 / var) / (1 / (s ^ 2) + n / var))
    (sqrt (1 / (1 / (s ^ 2) + n / var)))).
  - apply sqrt_lt_R0. apply Rdiv_lt_0_compat; lra.
  - apply Rmult_lt_compat_r; [apply Rinv_0_lt_compat; lra|]. apply Rplus_lt_compat_l.
    apply Rmult_lt_compat_r; auto. now apply Rinv_0_lt_compat.
Qed.

Lemma normal_known_precision_up (x1 x2 n precision : R) (prior : Normal R) : 0 < Normal_sigma prior -> 0 < precision -> 0 <= n -> x1 < x2 ->
  moved_up Fminf any_real (pdf (Normal_dist (normal_known_precision x1 n precision prior))) (pdf (Normal_dist (normal_known_precision x2 n precision prior))).
Proof. intros Hs Hp Hn Hx. apply (normal_known_variance_up x1 x2 n (1 / precision) prior); auto. apply Rdiv_lt_0_compat; lra. Qed.

Lemma deviations_sum mu xs : sumR (map (fun x => x ^ 2) xs) - 2 * mu * sumR xs + INR (length xs) * mu ^ 2 = deviations mu xs.
Proof.
  unfold deviations, sumR. induction xs as [|x xs IH]; [simpl; ring|].
  cbn [map fold_right]. change (length (x :: xs)) with (S (length xs)). rewrite S_INR, <- IH. ring.
Qed.

Lemma deviations_nonneg mu xs : 0 <= deviations mu xs.
Proof.
  unfold deviations, sumR. induction xs as [|x xs IH]; [simpl; lra|]. cbn [map fold_right]. pose proof (pow2_ge_0 (x - mu)). lra.
Qed.

Lemma moved_up_ext Fa (I : R -> Prop) Fb (E : Ends I Fa Fb) f g f' g' :
  (forall x, I x -> f x = f' x) -> (forall x, I x -> g x = g' x) -> moved_up Fa I f g -> moved_up Fa I f' g'.
Proof.
  intros Ef Eg M t Ht. destruct (M t Ht) as (F & G & HF & HG & L). exists F, G. split; [|split; [|exact L]].
  - revert HF. apply (is_RInt_gen_ext_on _ _ _ (ends_left I Fa Fb E t Ht)). intros x [Hx _]. auto.
  - revert HG. apply (is_RInt_gen_ext_on _ _ _ (ends_left I Fa Fb E t Ht)). intros x [Hx _]. auto.
Qed.

Lemma normal_known_mean_up (mu : R) (xs ys : list R) (prior : VariancePrior R) : variance_ok prior -> length xs = length ys ->
  deviations mu xs < deviations mu ys ->
  let posterior data := normal_known_mean (sumR data) (sumR (map (fun x => x ^ 2) data)) (INR (length data)) mu prior in
  moved_up Fpos0 positive (pdf (variance_dist (posterior xs))) (pdf (variance_dist (posterior ys))).
Proof.
  intros Hp Hl Hd posterior. pose proof (deviations_nonneg mu xs) as H0.
  destruct (known_mean_form prior mu Hp) as (a & b & Ha & Hb & Q).
  pose proof (pos_INR (length ys)) as Hn.
  apply (moved_up_ext _ _ _ ends_pos
     (pdf (InverseGamma_dist (mkInverseGamma (a + INR (length ys) / 2) (b + / 2 * deviations mu xs))))
     (pdf (InverseGamma_dist (mkInverseGamma (a + INR (length ys) / 2) (b + / 2 * deviations mu ys))))).
  - intros v _. unfold posterior. destruct (Q (sumR xs) (sumR (map (fun x => x ^ 2) xs)) (INR (length xs))) as [_ R];
      [apply pos_INR|rewrite deviations_sum; lra|]. rewrite R, deviations_sum, Hl. reflexivity.
  - intros v _. unfold posterior. destruct (Q (sumR ys) (sumR (map (fun x => x ^ 2) ys)) (INR (length ys))) as [_ R];
      [apply pos_INR|rewrite deviations_sum; lra|]. rewrite R, deviations_sum. reflexivity.
  - apply inverse_gamma_up; lra.
Qed.

(** What the exponential model should do, and what it does. *)
Lemma exponential_wrong_way (prior : Gamma R) (xs ys : list R) (px py : R -> R) : 0 < Gamma_alpha prior -> 0 < Gamma_beta prior ->
  List.Forall (fun x => 0 <= x) xs -> List.Forall (fun y => 0 <= y) ys -> length xs = length ys -> sumR xs < sumR ys ->
  bayes_posterior Fpos0 Finf (pdf (Gamma_dist prior)) (likelihood (fun rate x => pdf (S_expon_scale (/ rate)) x) xs) px ->
  bayes_posterior Fpos0 Finf (pdf (Gamma_dist prior)) (likelihood (fun rate x => pdf (S_expon_scale (/ rate)) x) ys) py ->
  moved_up Fpos0 positive py px /\
  moved_up Fpos0 positive (pdf (Gamma_dist (exponential_gamma (sumR xs) (INR (length xs)) prior)))
    (pdf (Gamma_dist (exponential_gamma (sumR ys) (INR (length ys)) prior))).
Proof.
  intros Ha Hb Fx Fy L S Bx By.
  assert (Px : 0 <= sumR xs). { clear -Fx. induction Fx; simpl; lra. }
  pose proof (pos_INR (length ys)) as Hn. split.
  - apply (moved_up_ext _ _ _ ends_pos (pdf (Gamma_dist (exponential_gamma (INR (length ys)) (sumR ys) prior)))
      (pdf (Gamma_dist (exponential_gamma (INR (length xs)) (sumR xs) prior)))).
    + intros t _. exact (bayes_unique _ _ _ ends_pos _ _ _ _ (exponential_rate_bayes prior ys Ha Hb Fy) By t).
    + intros t _. exact (bayes_unique _ _ _ ends_pos _ _ _ _ (exponential_rate_bayes prior xs Ha Hb Fx) Bx t).
    + rewrite L. destruct prior as [a b]. cbn [Gamma_alpha Gamma_beta] in *.
      apply (gamma_up (a + INR (length ys)) (b + sumR ys) (a + INR (length ys)) (b + sumR xs)); lra.
  - rewrite L. apply exponential_up; auto.
Qed.

Lemma exponential_wrong_way_case :
  let prior := mkGamma 1 1 in let xs := [1; 2] in let ys := [3; 2] in exists px py,
  List.Forall (fun x => 0 <= x) xs /\ List.Forall (fun y => 0 <= y) ys /\ length xs = length ys /\ sumR xs < sumR ys /\
  bayes_posterior Fpos0 Finf (pdf (Gamma_dist prior)) (likelihood (fun rate x => pdf (S_expon_scale (/ rate)) x) xs) px /\
  bayes_posterior Fpos0 Finf (pdf (Gamma_dist prior)) (likelihood (fun rate x => pdf (S_expon_scale (/ rate)) x) ys) py.
Proof.
  intros prior xs ys.
  assert (Fx : List.Forall (fun x => 0 <= x) xs) by (repeat (apply Forall_cons || apply Forall_nil); lra).
  assert (Fy : List.Forall (fun x => 0 <= x) ys) by (repeat (apply Forall_cons || apply Forall_nil); lra).
  do 2 eexists. split; [exact Fx|]. split; [exact Fy|]. split; [reflexivity|]. split; [unfold sumR; simpl; lra|].
  split; apply exponential_rate_bayes; auto; simpl; lra.
Qed.
