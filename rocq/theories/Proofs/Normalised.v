(** C66: the densities and mass functions of the classes have total mass one. *)

From Coq Require Import Reals Lra Psatz ZArith Lia.
From Coquelicot Require Import Coquelicot.
From Verif Require Import Model.Num Model.Py Model.Dists Model.ScipyDist Model.Models.
From Verif Require Import Spec.Special Spec.Densities Spec.Bayes Spec.Convolution Spec.Normalised.
From Verif Require Import Analysis.Improper Analysis.RealAux Analysis.GammaBeta Analysis.GammaFacts Analysis.Gauss Analysis.Moments.
From Verif Require Import Proofs.Pdfs Proofs.Conj Proofs.Predictive Proofs.Arith.
From Coq Require Import List.
Import ListNotations.
Open Scope R_scope.

Lemma mult_one_r (f : R -> R) (Fa Fb : (R -> Prop) -> Prop) {FA : Filter Fa} {FB : Filter Fb} c l : c * l = 1 ->
  is_RInt_gen f Fa Fb l -> is_RInt_gen (fun x => c * f x) Fa Fb 1.
Proof. intros <- H. now apply is_RInt_gen_mult_l. Qed.

Lemma int_value (f : R -> R) Fa Fb (l l' : R) : l = l' -> is_RInt_gen f Fa Fb l -> is_RInt_gen f Fa Fb l'.
Proof. now intros ->. Qed.

(** Location and scale on a half line *)
Lemma filterlim_locscale_0 loc s : 0 < s -> filterlim (fun x => (x - loc) / s) (at_right loc) (at_right 0).
Proof.
  intros Hs P [eps HP].
  assert (Hd : 0 < eps * s) by (apply Rmult_lt_0_compat; auto; apply cond_pos).
  exists (mkposreal _ Hd). intros y Hy Hl.
  unfold ball in Hy; simpl in Hy; unfold AbsRing_ball, abs, minus, plus, opp in Hy; simpl in Hy.
  assert (0 < (y - loc) / s) by (apply Rdiv_lt_0_compat; lra).
  apply HP; auto.
  unfold ball; simpl; unfold AbsRing_ball, abs, minus, plus, opp; simpl.
  rewrite Ropp_0, Rplus_0_r, Rabs_right by lra. rewrite Rabs_right in Hy by lra.
  apply Rlt_div_l; lra.
Qed.

Lemma filterlim_locscale_inf loc s : 0 < s -> filterlim (fun x => (x - loc) / s) Finf Finf.
Proof.
  intros Hs. apply (filterlim_ext (fun x => / s * (x - loc))). intros; unfold Rdiv; ring.
  apply filterlim_affine_inf. now apply Rinv_0_lt_compat.
Qed.

Lemma locscale_above (f : R -> R) loc s l : 0 < s -> cont_on f (fun x => 0 < x) ->
  is_RInt_gen f Fpos0 Finf l -> is_RInt_gen (locscale f loc s) (at_right loc) Finf l.
Proof.
  intros Hs Hc H.
  apply (is_RInt_gen_subst _ _ _ (ends_above loc) Fpos0 Finf (fun x => 0 < x) f (fun x => (x - loc) / s) (fun _ => / s)) in H.
  - revert H. apply (is_RInt_gen_ext_on _ _ _ (ends_above loc)). intros x _. unfold locscale, Rdiv. ring.
  - apply FF0.
  - apply FFinf.
  - intros x Hx. apply Rdiv_lt_0_compat; lra.
  - intros x _. auto_derive; auto. simpl. unfold Rdiv. ring.
  - intros x _. apply continuous_const.
  - exact Hc.
  - now apply filterlim_locscale_0.
  - now apply filterlim_locscale_inf.
Qed.

Lemma locscale_nonneg f loc s x : 0 < s -> (forall y, 0 <= f y) -> 0 <= locscale f loc s x.
Proof. intros Hs H. unfold locscale. apply Rmult_le_pos. apply H. left. now apply Rinv_0_lt_compat. Qed.

Lemma locscale_below f loc s x : 0 < s -> (forall y, y < 0 -> f y = 0) -> x < loc -> locscale f loc s x = 0.
Proof.
  intros Hs H Hx. unfold locscale. rewrite H. unfold Rdiv; ring.
  apply Rmult_lt_reg_r with s; auto. unfold Rdiv. rewrite Rmult_assoc, Rinv_l by lra. lra.
Qed.

Lemma Rif_nonneg b x : 0 <= x -> 0 <= Rif b x.
Proof. intros. destruct b; simpl; lra. Qed.
Lemma inv_nonneg x : 0 <= x -> 0 <= / x.
Proof. intros [H| <-]. left; now apply Rinv_0_lt_compat. rewrite Rinv_0. lra. Qed.
Lemma div_nonneg x y : 0 <= x -> 0 <= y -> 0 <= x / y.
Proof. intros. apply Rmult_le_pos; auto. now apply inv_nonneg. Qed.

(** A half-line density out of its standard form *)
Lemma half_line_density f (loc s : R) : 0 < s -> (forall y, 0 <= f y) -> (forall y, y < 0 -> f y = 0) ->
  cont_on f (fun x => 0 < x) -> is_RInt_gen f Fpos0 Finf 1 -> is_density loc p_infty (locscale f loc s).
Proof.
  intros Hs H0 Hn Hc H. split; [|split].
  - intros x. now apply locscale_nonneg.
  - intros x [Hx|Hx]; [|destruct Hx]. apply locscale_below; auto.
  - now apply locscale_above.
Qed.

Lemma cont_ext_pos f g : (forall x, 0 < x -> f x = g x) -> cont_on f (fun x => 0 < x) -> cont_on g (fun x => 0 < x).
Proof.
  intros E H x Hx. apply continuous_ext_loc with f; [|now apply H].
  exists (mkposreal x Hx). intros y Hy. apply E.
  unfold ball in Hy; simpl in Hy; unfold AbsRing_ball, abs, minus, plus, opp in Hy; simpl in Hy.
  apply Rabs_lt_between' in Hy. simpl in Hy. lra.
Qed.

(** Both steps at once: continuity and the integral of the formula on the support *)
Lemma half_line f g (loc s : R) : 0 < s -> (forall y, 0 <= f y) -> (forall y, y < 0 -> f y = 0) ->
  (forall x, 0 < x -> g x = f x) -> cont_on g (fun x => 0 < x) -> is_RInt_gen g Fpos0 Finf 1 ->
  is_density loc p_infty (locscale f loc s).
Proof.
  intros Hs H0 Hn E Hc H. apply half_line_density; auto.
  - now apply cont_ext_pos with g.
  - now apply (is_RInt_gen_ext_on _ _ _ ends_pos g).
Qed.

Lemma ltb_neg y : y < 0 -> ltb 0 y = false.
Proof. intros. apply ltb_false. lra. Qed.
Lemma leb_neg y : y < 0 -> leb 0 y = false.
Proof. intros. apply leb_false. lra. Qed.

(** ** Continuous classes *)
Lemma Beta_density (d : Beta R) : 0 < Beta_alpha d -> 0 < Beta_beta d -> is_density 0 1 (pdf (Beta_dist d)).
Proof.
  intros Ha Hb. pose proof (Beta_fun_pos _ _ Ha Hb). split; [|split].
  - intros x. unfold Beta_dist, pdf, std_beta. apply Rif_nonneg. apply div_nonneg; [|lra].
    apply Rmult_le_pos; apply Rpower_nonneg.
  - intros x Hx. apply beta_pdf_out. simpl in Hx. lra.
  - now apply beta_normalised.
Qed.

Lemma std_gamma_density a : 0 < a -> is_RInt_gen (fun x => / Gamma_fun a * (Rpower x (a - 1) * exp (- x))) Fpos0 Finf 1.
Proof.
  intros Ha. pose proof (Gamma_fun_pos a Ha). apply mult_one_r with (Gamma_fun a); try typeclasses eauto.
  - field. lra.
  - now apply is_RInt_gen_Gamma.
Qed.

Lemma gamma_density a s : 0 < a -> 0 < s -> is_density 0 p_infty (pdf (S_gamma_scale a s)).
Proof.
  intros Ha Hs. pose proof (Gamma_fun_pos a Ha).
  apply (half_line (std_gamma a) (fun x => / Gamma_fun a * (Rpower x (a - 1) * exp (- x)))); auto.
  - intros y. apply Rif_nonneg, div_nonneg; [|lra]. apply Rmult_le_pos. apply Rpower_nonneg. left; apply exp_pos.
  - intros y Hy. unfold std_gamma. now rewrite ltb_neg.
  - intros x Hx. unfold std_gamma. rewrite ltb_true by auto. simpl. unfold Rdiv. ring.
  - intros x Hx. apply (continuous_scal_r (/ Gamma_fun a) (fun t => Rpower t (a - 1) * exp (- t))).
    exact (cont_gamma_integrand a x Hx).
  - now apply std_gamma_density.
Qed.

Lemma Gamma_density (d : Gamma R) : 0 < Gamma_alpha d -> 0 < Gamma_beta d -> is_density 0 p_infty (pdf (Gamma_dist d)).
Proof. intros Ha Hb. apply gamma_density; auto. apply Rdiv_lt_0_compat; auto. exact Rlt_0_1. Qed.

Lemma Exponential_density (d : Exponential R) : 0 < Exponential_lam d -> is_density 0 p_infty (pdf (Exponential_dist d)).
Proof.
  intros Hs. apply (half_line std_expon (fun x => exp (- x))); auto.
  - intros y. apply Rif_nonneg. left; apply exp_pos.
  - intros y Hy. unfold std_expon. now rewrite leb_neg.
  - intros x Hx. unfold std_expon. now rewrite leb_true by lra.
  - intros x _. apply continuous_exp_opp.
  - pose proof (std_gamma_density 1 Rlt_0_1) as H. rewrite Gamma_fun_1 in H.
    revert H. apply (is_RInt_gen_ext_on _ _ _ ends_pos). intros x Hx.
    replace (1 - 1) with 0 by ring. rewrite Rpower_0. field.
Qed.

Lemma invgamma_density a s : 0 < a -> 0 < s -> is_density 0 p_infty (pdf (S_invgamma_scale a s)).
Proof.
  intros Ha Hs. pose proof (Gamma_fun_pos a Ha).
  apply (half_line (std_invgamma a) (fun x => / Gamma_fun a * (Rpower x (- a - 1) * exp (- (1 / x))))); auto.
  - intros y. apply Rif_nonneg. apply Rmult_le_pos. apply div_nonneg. apply Rpower_nonneg. lra. left; apply exp_pos.
  - intros y Hy. unfold std_invgamma. now rewrite ltb_neg.
  - intros x Hx. unfold std_invgamma. rewrite ltb_true by auto. simpl. unfold Rdiv. ring.
  - intros x Hx. apply (ex_derive_continuous (V:=R_NormedModule)).
    apply (ex_derive_scal (fun x => Rpower x (- a - 1) * exp (- (1 / x)))). apply (ex_derive_mult (fun x => Rpower x (- a - 1))).
    eexists; now apply is_derive_Rpower. auto_derive. lra.
  - apply mult_one_r with (Gamma_fun a / Rpower 1 a); try typeclasses eauto.
    + rewrite Rpower_one_l. field. lra.
    + apply is_RInt_gen_InvGamma; lra.
Qed.

Lemma InverseGamma_density (d : InverseGamma R) : 0 < InverseGamma_alpha d -> 0 < InverseGamma_beta d ->
  is_density 0 p_infty (pdf (InverseGamma_dist d)).
Proof. apply invgamma_density. Qed.

Lemma ScaledInverseChiSquared_density (d : ScaledInverseChiSquared R) :
  0 < ScaledInverseChiSquared_nu d -> 0 < ScaledInverseChiSquared_sigma2 d ->
  is_density 0 p_infty (pdf (ScaledInverseChiSquared_dist d)).
Proof.
  destruct d as [nu s2]; simpl ScaledInverseChiSquared_nu; simpl ScaledInverseChiSquared_sigma2. intros Hn Hs.
  pose proof (Rmult_lt_0_compat _ _ Hn Hs). apply invgamma_density; simpl; lra.
Qed.

Lemma cont_std_norm x : continuous std_norm x.
Proof. apply (ex_derive_continuous (V:=R_NormedModule)). unfold std_norm. auto_derive. pose proof sqrt_2pi_pos. simpl in *. lra. Qed.

Lemma std_norm_total : is_RInt_gen std_norm Fminf Finf 1.
Proof.
  pose proof sqrt_2pi_pos.
  pose proof (mult_one_r (fun x => exp (- x ^ 2 / 2)) Fminf Finf (/ sqrt (2 * PI)) (sqrt (2 * PI)) ltac:(field; lra) is_RInt_gen_gauss_0) as H0.
  revert H0. apply (is_RInt_gen_ext_on _ _ _ ends_line). intros x _. unfold std_norm, Rdiv. ring.
Qed.

(** Location and scale on the line *)
Lemma line_density f (loc s : R) : 0 < s -> (forall y, 0 <= f y) -> (forall x, continuous f x) ->
  is_RInt_gen f Fminf Finf 1 -> is_density m_infty p_infty (locscale f loc s).
Proof.
  intros Hs H0 Hc H. split; [|split].
  - intros x. now apply locscale_nonneg.
  - intros x [Hx|Hx]; destruct Hx.
  - apply (is_RInt_gen_affine f (/ s) loc 1) in H; auto; [|now apply Rinv_0_lt_compat].
    apply (mult_one_r _ _ _ (/ s)) in H.
    + revert H. apply (is_RInt_gen_ext_on _ _ _ ends_line). intros x _. unfold locscale.
      replace (/ s * (x - loc)) with ((x - loc) / s) by (unfold Rdiv; ring). unfold Rdiv; ring.
    + field. lra.
Qed.

Lemma Normal_density (d : Normal R) : 0 < Normal_sigma d -> is_density m_infty p_infty (pdf (Normal_dist d)).
Proof.
  intros Hs. apply (line_density std_norm); auto.
  - intros y. apply div_nonneg. left; apply exp_pos. apply sqrt_pos.
  - apply cont_std_norm.
  - apply std_norm_total.
Qed.

Lemma std_t_total df : 0 < df -> is_RInt_gen (std_t df) Fminf Finf 1.
Proof.
  intros Hd. pose proof (is_RInt_gen_t_kernel df Hd) as H.
  apply (mult_one_r _ _ _ (/ (sqrt df * Beta_fun (/2) (df / 2)))) in H.
  - revert H. apply (is_RInt_gen_ext_on _ _ _ ends_line). intros x _.
    pose proof (t_pdf df 0 1 x Hd Rlt_0_1) as E. simpl pdf in E. unfold locscale in E.
    replace ((x - 0) / 1) with x in E by field. rewrite Rdiv_1 in E. rewrite E.
    f_equal. f_equal. ring. f_equal. simpl. field. lra.
  - pose proof (Beta_fun_pos (/2) (df / 2) ltac:(lra) ltac:(lra)).
    pose proof (sqrt_lt_R0 df Hd). field. lra.
Qed.

Lemma cont_std_t df x : 0 < df -> continuous (std_t df) x.
Proof.
  intros Hd. apply (ex_derive_continuous (V:=R_NormedModule)). unfold std_t.
  apply (ex_derive_scal (fun x => Rpower (1 + x ^ 2 / df) (- ((df + 1) / 2)))). unfold Rpower.
  assert (0 < 1 + x ^ 2 / df). { pose proof (div_nonneg (x ^ 2) df (pow2_ge_0 x) ltac:(lra)). lra. }
  auto_derive. replace (x * (x * 1)) with (x ^ 2) by ring. exact H.
Qed.

Lemma StudentT_density (d : StudentT R) : 0 < StudentT_nu d -> 0 < StudentT_sigma d ->
  is_density m_infty p_infty (pdf (StudentT_dist d)).
Proof.
  intros Hn Hs. apply (line_density (std_t (StudentT_nu d))); auto.
  - intros y. apply Rmult_le_pos; [|apply Rpower_nonneg]. apply div_nonneg.
    + left. apply Gamma_fun_pos. lra.
    + apply Rmult_le_pos. apply sqrt_pos. left. apply Gamma_fun_pos. lra.
  - intros x. now apply cont_std_t.
  - now apply std_t_total.
Qed.

Lemma filterlim_right_cont (F : R -> R) a : continuous F a -> filterlim F (at_right a) (locally (F a)).
Proof. intros H. eapply filterlim_filter_le_1; [|exact H]. apply filter_le_within. Qed.
Lemma filterlim_left_cont (F : R -> R) a : continuous F a -> filterlim F (at_left a) (locally (F a)).
Proof. intros H. eapply filterlim_filter_le_1; [|exact H]. apply filter_le_within. Qed.

Lemma Uniform_density (d : Uniform R) : 0 < Uniform_high d ->
  is_density (Uniform_low d) (Uniform_low d + Uniform_high d) (pdf (Uniform_dist d)).
Proof.
  destruct d as [l s]; unfold Uniform_dist; simpl Uniform_low; simpl Uniform_high. intros Hs. split; [|split].
  - intros x. apply locscale_nonneg; auto. intros y. apply Rif_nonneg. lra.
  - intros x Hx. now apply uniform_pdf_out.
  - assert (L : l < l + s) by lra.
    apply (is_RInt_gen_ext_on _ _ _ (ends_open _ _ L) (fun _ => / s)).
    { intros x Hx. now rewrite uniform_pdf by lra. }
    apply int_value with ((l + s) / s - l / s). { field; lra. }
    apply (is_RInt_gen_FTC _ _ _ (ends_open _ _ L) (fun x => x / s)).
    + intros x _. auto_derive; auto; try lra.
    + intros x _. apply continuous_const.
    + apply (filterlim_right_cont (fun x => x / s)). apply (ex_derive_continuous (V:=R_NormedModule)). auto_derive; auto; try lra.
    + apply (filterlim_left_cont (fun x => x / s)). apply (ex_derive_continuous (V:=R_NormedModule)). auto_derive; auto; try lra.
Qed.

Lemma Pareto_density (d : Pareto R) : 0 < Pareto_x_m d -> 0 < Pareto_alpha d ->
  is_density (Pareto_x_m d) p_infty (pdf (Pareto_dist d)).
Proof.
  destruct d as [s b]; unfold Pareto_dist; simpl Pareto_x_m; simpl Pareto_alpha. intros Hs Hb. split; [|split].
  - intros x. apply locscale_nonneg; auto. intros y. apply Rif_nonneg, div_nonneg; [lra|apply Rpower_nonneg].
  - intros x [Hx|Hx]; [|destruct Hx]. now apply pareto_pdf_out.
  - apply (is_RInt_gen_ext_on _ _ _ (ends_above s) (fun x => b * Rpower s b * Rpower x (- b - 1))).
    { intros x Hx. rewrite pareto_pdf by lra. replace (- b - 1) with (- (b + 1)) by ring. rewrite Rpower_Ropp. reflexivity. }
    apply int_value with (- Rpower s b * 0 - (- Rpower s b * Rpower s (- b))).
    { rewrite Rpower_Ropp. field. apply Rgt_not_eq, Rpower_pos. }
    apply (is_RInt_gen_FTC _ _ _ (ends_above s) (fun x => - Rpower s b * Rpower x (- b))).
    + intros x Hx. evar_last. apply (is_derive_scal (fun t => Rpower t (- b)) x (- Rpower s b)). apply is_derive_Rpower; lra.
      simpl. ring.
    + intros x Hx. apply (continuous_scal_r (b * Rpower s b) (fun x => Rpower x (- b - 1))). apply continuous_Rpower. lra.
    + apply (filterlim_right_cont (fun x => - Rpower s b * Rpower x (- b))).
      apply (continuous_scal_r (- Rpower s b) (fun x => Rpower x (- b))). now apply continuous_Rpower.
    + apply filterlim_const_mult. apply FFinf. apply filterlim_Rpower_neg_inf. lra.
Qed.

Lemma Lomax_density (d : Lomax R) : 0 < Lomax_lam d -> 0 < Lomax_alpha d -> is_density 0 p_infty (pdf (Lomax_dist d)).
Proof.
  destruct d as [c s]; unfold Lomax_dist; simpl Lomax_lam; simpl Lomax_alpha. intros Hs Hc.
  apply (half_line (std_lomax c) (fun x => c * Rpower (1 + x) (- c - 1))); auto.
  - intros y. apply Rif_nonneg, div_nonneg; [lra|apply Rpower_nonneg].
  - intros y Hy. unfold std_lomax. now rewrite leb_neg.
  - intros x Hx. unfold std_lomax. rewrite leb_true by lra. simpl. replace (- c - 1) with (- (c + 1)) by ring.
    rewrite Rpower_Ropp. reflexivity.
  - intros x Hx. apply (continuous_scal_r c (fun x => Rpower (1 + x) (- c - 1))).
    apply (ex_derive_continuous (V:=R_NormedModule)). unfold Rpower. auto_derive. lra.
  - apply int_value with (- 1 * 0 - (- 1 * Rpower (1 + 0) (- c))). { rewrite Rplus_0_r, Rpower_one_l. ring. }
    apply (is_RInt_gen_FTC _ _ _ ends_pos (fun x => - 1 * Rpower (1 + x) (- c))).
    + intros x Hx. unfold Rpower. auto_derive. lra. simpl. replace (- c - 1) with (- c + - 1) by ring.
      rewrite Rmult_plus_distr_r, exp_plus. replace (-1 * ln (1 + x)) with (- ln (1 + x)) by ring.
      rewrite exp_Ropp, exp_ln by lra. field. lra.
    + intros x Hx. apply (continuous_scal_r c (fun x => Rpower (1 + x) (- c - 1))).
      apply (ex_derive_continuous (V:=R_NormedModule)). unfold Rpower. auto_derive. lra.
    + apply (filterlim_right_cont (fun x => - 1 * Rpower (1 + x) (- c))). apply (ex_derive_continuous (V:=R_NormedModule)).
      unfold Rpower. auto_derive. lra.
    + apply filterlim_const_mult. apply FFinf.
      apply (filterlim_comp _ _ _ (fun x => 1 + x) (fun y => Rpower y (- c)) Finf Finf).
      * intros P [M HM]. exists (M - 1). intros x Hx. apply HM. lra.
      * apply filterlim_Rpower_neg_inf. lra.
Qed.

Lemma filterlim_Rpower_inf c : 0 < c -> filterlim (fun t => Rpower t c) Finf Finf.
Proof.
  intros Hc P [M HP]. exists (Rpower (Rmax M 1) (/ c)). intros x Hx. apply HP.
  assert (1 <= Rmax M 1) by apply Rmax_r. pose proof (Rmax_l M 1).
  assert (Rmax M 1 = Rpower (Rpower (Rmax M 1) (/ c)) c).
  { rewrite Rpower_mult, Rinv_l by lra. now rewrite Rpower_1 by lra. }
  apply Rle_lt_trans with (Rmax M 1); auto. rewrite H1.
  apply Rlt_Rpower_l; auto. split; auto. apply Rpower_pos.
Qed.

Lemma weibull_density c s : 0 < c -> 0 < s -> is_density 0 p_infty (pdf (S_weibull_min_scale c s)).
Proof.
  intros Hc Hs.
  assert (D : forall x, 0 < x -> is_derive (fun x => - 1 * exp (- Rpower x c)) x (c * Rpower x (c - 1) * exp (- Rpower x c))).
  { intros x Hx. rewrite (Rpower_pred x c) by auto. unfold Rpower. auto_derive; auto. simpl. field. lra. }
  assert (C : cont_on (fun x => c * Rpower x (c - 1) * exp (- Rpower x c)) (fun x => 0 < x)).
  { intros x Hx. apply (ex_derive_continuous (V:=R_NormedModule)). unfold Rpower. auto_derive. auto. }
  apply (half_line (std_weibull_min c) (fun x => c * Rpower x (c - 1) * exp (- Rpower x c))); auto.
  - intros y. apply Rif_nonneg. apply Rmult_le_pos; [apply Rmult_le_pos; [lra|apply Rpower_nonneg]|left; apply exp_pos].
  - intros y Hy. unfold std_weibull_min. now rewrite ltb_neg.
  - intros x Hx. unfold std_weibull_min. now rewrite ltb_true by lra.
  - apply int_value with (- 1 * 0 - (- 1 * exp (- 0))). { rewrite Ropp_0, exp_0. ring. }
    apply (is_RInt_gen_FTC _ _ _ ends_pos (fun x => - 1 * exp (- Rpower x c))); auto.
    + apply filterlim_const_mult. apply FF0.
      apply (filterlim_comp _ _ _ (fun x => Rpower x c) (fun y => exp (- y)) Fpos0 (locally 0)).
      * now apply filterlim_Rpower_0.
      * apply continuous_exp_opp.
    + apply filterlim_const_mult. apply FFinf.
      apply (filterlim_comp _ _ _ (fun x => Rpower x c) (fun y => exp (- y)) Finf Finf).
      * now apply filterlim_Rpower_inf.
      * apply (filterlim_ext (fun t => exp (- (1) * t))). intros; f_equal; ring. apply filterlim_exp_neg. lra.
Qed.

Lemma Weibull_density (d : Weibull R) : 0 < Weibull_beta d -> 0 < Weibull_theta d ->
  is_density 0 p_infty (pdf (Weibull_dist d)).
Proof. intros Hb Ht. apply weibull_density; auto. apply Rpower_pos. Qed.

Lemma filterlim_ln_scaled_0 s : 0 < s -> filterlim (fun x => ln x / s) Fpos0 Fminf.
Proof.
  intros Hs P [M HP]. exists (mkposreal (exp (M * s)) (exp_pos _)). intros x Hx Hx0. apply HP.
  unfold ball in Hx; simpl in Hx; unfold AbsRing_ball, abs, minus, plus, opp in Hx; simpl in Hx.
  rewrite Ropp_0, Rplus_0_r, Rabs_right in Hx by lra. apply Rlt_div_l; auto.
  apply exp_lt_inv. now rewrite exp_ln.
Qed.
Lemma filterlim_ln_scaled_inf s : 0 < s -> filterlim (fun x => ln x / s) Finf Finf.
Proof.
  intros Hs P [M HP]. exists (exp (M * s)). intros x Hx. apply HP. apply Rlt_div_r; auto.
  pose proof (exp_pos (M * s)). apply exp_lt_inv. rewrite exp_ln; lra.
Qed.

(** As the class is written: location [mu] instead of a shift of the logarithm. *)
Lemma LogNormal_density (d : LogNormal R) : 0 < LogNormal_sigma d -> is_density (LogNormal_mu d) p_infty (pdf (LogNormal_dist d)).
Proof.
  destruct d as [m s]; unfold LogNormal_dist; simpl LogNormal_mu; simpl LogNormal_sigma. intros Hs. pose proof sqrt_2pi_pos.
  assert (C : forall x, 0 < x -> continuous (fun x => / (s * x) * std_norm (ln x / s)) x).
  { intros x Hx. apply (ex_derive_continuous (V:=R_NormedModule)). unfold std_norm. auto_derive.
    repeat split; auto; try lra. apply Rgt_not_eq. now apply Rmult_lt_0_compat. }
  apply (half_line (std_lognorm s) (fun x => / (s * x) * std_norm (ln x / s)) m 1); auto; try exact Rlt_0_1.
  - intros y. unfold std_lognorm. destruct (ltb 0 y) eqn:E; simpl; [|lra].
    assert (0 < y). { unfold ltb in E. destruct (Rlt_dec 0 y); auto; discriminate. }
    apply Rmult_le_pos; [|left; apply exp_pos]. left. apply Rinv_0_lt_compat. apply Rmult_lt_0_compat; auto. now apply Rmult_lt_0_compat.
  - intros y Hy. unfold std_lognorm. now rewrite ltb_neg.
  - intros x Hx. unfold std_lognorm, std_norm. rewrite ltb_true by auto. cbn [Rif].
    replace (- (ln x / s) ^ 2 / 2) with (- (ln x) ^ 2 / (2 * s ^ 2)) by (field; lra). field. repeat split; lra.
  - apply (is_RInt_gen_subst _ _ _ ends_pos Fminf Finf (fun _ => True) std_norm (fun x => ln x / s) (fun x => / (s * x))).
    + apply FFinf.
    + apply FFinf.
    + auto.
    + intros x Hx. auto_derive; auto. simpl. field. lra.
    + intros x Hx. apply (ex_derive_continuous (V:=R_NormedModule)). auto_derive. apply Rgt_not_eq. now apply Rmult_lt_0_compat.
    + intros x _. apply cont_std_norm.
    + now apply filterlim_ln_scaled_0.
    + now apply filterlim_ln_scaled_inf.
    + apply std_norm_total.
Qed.

(** The library's own density of CompoundGamma, on its support *)
Lemma CompoundGamma_total (d : CompoundGamma R) : 0 < CompoundGamma_alpha d -> 0 < CompoundGamma_beta d -> 0 < CompoundGamma_lam d ->
  (forall x, 0 < x -> 0 < pdf (CompoundGamma_dist d) x) /\ is_RInt_gen (pdf (CompoundGamma_dist d)) (from 0) (upto p_infty) 1.
Proof.
  destruct d as [a b q]; unfold CompoundGamma_dist; simpl CompoundGamma_alpha; simpl CompoundGamma_beta; simpl CompoundGamma_lam.
  intros Ha Hb Hq. pose proof (Beta_fun_pos a b Ha Hb). split.
  - intros x Hx. simpl. unfold compound_gamma_pdf. simpl. apply Rdiv_lt_0_compat.
    apply Rmult_lt_0_compat; apply Rpower_pos. now apply Rmult_lt_0_compat.
  - assert (I : is_RInt_gen (fun y => / Beta_fun a b * (Rpower y (a - 1) / Rpower (1 + y) (a + b))) Fpos0 Finf 1).
    { apply mult_one_r with (Beta_fun a b); try typeclasses eauto. field; lra. now apply is_RInt_gen_BetaPrime. }
    apply (locscale_above _ 0 q) in I; auto.
    + revert I. apply (is_RInt_gen_ext_on _ _ _ ends_pos). intros x Hx. simpl. unfold compound_gamma_pdf, locscale. simpl.
      rewrite Rminus_0_r. replace (0 - a - b) with (- (a + b)) by ring. rewrite Rpower_Ropp. field.
      repeat split; try lra. apply Rgt_not_eq, Rpower_pos.
    + intros x Hx. apply (continuous_scal_r (/ Beta_fun a b) (fun y => Rpower y (a - 1) / Rpower (1 + y) (a + b))).
      apply (ex_derive_continuous (V:=R_NormedModule)). unfold Rpower. auto_derive. repeat split; auto; try lra. apply Rgt_not_eq, exp_pos.
Qed.

(** Von Mises: one turn *)
Lemma cont_vonmises k x : continuous (fun t => exp (k * cos t)) x.
Proof. apply (ex_derive_continuous (V:=R_NormedModule)). auto_derive. auto. Qed.
Lemma int_cont (f : R -> R) a b : (forall x, continuous f x) -> ex_RInt f a b.
Proof. intros H. apply (ex_RInt_continuous (V:=R_CompleteNormedModule)). auto. Qed.

Lemma Bessel_i0_pos k : 0 < Bessel_i0 k.
Proof.
  unfold Bessel_i0. pose proof PI_RGT_0. apply Rmult_lt_0_compat. now apply Rinv_0_lt_compat.
  apply RInt_gt_0; auto. intros; apply exp_pos. intros. apply cont_vonmises.
Qed.

Lemma RInt_shift (f : R -> R) c a b : (forall x, continuous f x) -> RInt (fun x => f (x + c)) a b = RInt f (a + c) (b + c).
Proof.
  intros H. rewrite <- (Rmult_1_l a) at 2. rewrite <- (Rmult_1_l b) at 2.
  rewrite <- (RInt_comp_lin (V:=R_CompleteNormedModule) f 1 c a b).
  - apply RInt_ext. intros x _. unfold scal; simpl; unfold mult; simpl. rewrite !Rmult_1_l. reflexivity.
  - now apply int_cont.
Qed.

Lemma RInt_mirror (f : R -> R) a : (forall x, continuous f x) -> (forall x, f (- x) = f x) -> RInt f (- a) 0 = RInt f 0 a.
Proof.
  intros H E.
  assert (Ho : RInt (fun x => scal (-1) (f (-1 * x + 0))) 0 a = RInt f (-1 * 0 + 0) (-1 * a + 0)).
  { apply (RInt_comp_lin (V:=R_CompleteNormedModule)). now apply int_cont. }
  replace (-1 * 0 + 0) with 0 in Ho by ring. replace (-1 * a + 0) with (- a) in Ho by ring.
  rewrite <- (opp_RInt_swap (V:=R_CompleteNormedModule)) by now apply int_cont. unfold opp; simpl. rewrite <- Ho.
  rewrite (RInt_ext _ (fun x => - f x)).
  2:{ intros x _. unfold scal; simpl; unfold mult; simpl. replace (-1 * x + 0) with (- x) by ring. rewrite E. ring. }
  rewrite (RInt_opp (V:=R_CompleteNormedModule)) by now apply int_cont. unfold opp; simpl. ring.
Qed.

Lemma RInt_turn (f : R -> R) T a b : (forall x, continuous f x) -> (forall x, f (x + T) = f x) ->
  RInt f a (a + T) = RInt f b (b + T).
Proof.
  intros H E.
  rewrite <- (RInt_Chasles (V:=R_CompleteNormedModule) f a b (a + T)) by now apply int_cont.
  rewrite <- (RInt_Chasles (V:=R_CompleteNormedModule) f b (b + T) (a + T)) by now apply int_cont.
  rewrite <- (RInt_shift f T b a) by auto. rewrite (RInt_ext (fun x => f (x + T)) f) by auto.
  rewrite <- (opp_RInt_swap (V:=R_CompleteNormedModule) f a b) by now apply int_cont.
  unfold plus, opp; simpl. ring.
Qed.

Lemma VonMises_density (d : VonMises R) :
  (forall x, 0 < pdf (VonMises_dist d) x) /\ (forall x, pdf (VonMises_dist d) (x + 2 * PI) = pdf (VonMises_dist d) x) /\
  (forall a, is_RInt (pdf (VonMises_dist d)) a (a + 2 * PI) 1).
Proof.
  destruct d as [m k]. unfold VonMises_dist; simpl VonMises_mu; simpl VonMises_kappa. pose proof PI_RGT_0 as HP.
  pose proof (Bessel_i0_pos k) as HI. set (f := pdf (S_vonmises_loc k m)).
  assert (E : forall x, f x = / (2 * PI * Bessel_i0 k) * exp (k * cos (x - m))).
  { intros x. unfold f. simpl. unfold locscale, std_vonmises. rewrite !Rdiv_1. unfold Rdiv. ring. }
  assert (C : forall x, continuous f x).
  { intros x. apply continuous_ext with (fun x => / (2 * PI * Bessel_i0 k) * exp (k * cos (x - m))). intros; symmetry; apply E.
    apply (ex_derive_continuous (V:=R_NormedModule)). auto_derive. auto. }
  assert (Pd : forall x, f (x + 2 * PI) = f x).
  { intros x. rewrite !E. do 3 f_equal. replace (x + 2 * PI - m) with ((x - m) + 2 * INR 1 * PI) by (simpl; ring). apply cos_period. }
  split; [|split; auto].
  - intros x. rewrite E. apply Rmult_lt_0_compat; [|apply exp_pos]. apply Rinv_0_lt_compat. apply Rmult_lt_0_compat; lra.
  - intros a. replace 1 with (RInt f a (a + 2 * PI)).
    { apply (RInt_correct (V:=R_CompleteNormedModule)). now apply int_cont. }
    rewrite (RInt_turn f (2 * PI) a (m - PI)) by auto.
    replace (m - PI) with (- PI + m) by ring. replace (- PI + m + 2 * PI) with (PI + m) by ring.
    rewrite <- (RInt_shift f m) by auto.
    rewrite (RInt_ext _ (fun x => scal (/ (2 * PI * Bessel_i0 k)) (exp (k * cos x)))).
    2:{ intros x _. rewrite E. unfold scal; simpl; unfold mult; simpl. replace (x + m - m) with x by ring. reflexivity. }
    rewrite (RInt_scal (V:=R_CompleteNormedModule)) by (apply int_cont; intros; apply cont_vonmises).
    rewrite <- (RInt_Chasles (V:=R_CompleteNormedModule) _ (- PI) 0 PI) by (apply int_cont; intros; apply cont_vonmises).
    rewrite RInt_mirror. 2: intros; apply cont_vonmises. 2: intros; now rewrite cos_neg.
    unfold Bessel_i0, scal, plus; simpl; unfold mult; simpl. unfold Bessel_i0 in HI.
    set (J := RInt (fun t => exp (k * cos t)) 0 PI) in *.
    assert (0 < J). { apply Rmult_lt_reg_l with (/ PI). now apply Rinv_0_lt_compat. lra. }
    field. lra.
Qed.

(** ** Discrete classes *)
Lemma sum_S (f : nat -> R) n : sum_n f (S n) = sum_n f n + f (S n).
Proof. now rewrite sum_Sn. Qed.
Lemma int_le (I : R -> Prop) Fa Fb (E : Ends I Fa Fb) (f g : R -> R) (lf lg : R) :
  (forall x, I x -> Rabs (f x) <= g x) -> is_RInt_gen f Fa Fb lf -> is_RInt_gen g Fa Fb lg -> lf <= lg.
Proof.
  intros H Hf Hg. pose proof (e_Fa _ _ _ E) as PA. pose proof (e_Fb _ _ _ E) as PB.
  destruct (ends_inhabited _ _ _ E) as [c Hc].
  apply Rle_trans with (Rabs lf). apply Rle_abs.
  apply (RInt_gen_norm (V:=R_CompleteNormedModule) (Fa:=Fa) (Fb:=Fb) f g lf lg); auto.
  - exists (fun x => x <= c) (fun x => c <= x); simpl.
    + now apply (e_A _ _ _ E).
    + now apply (e_B _ _ _ E).
    + intros; lra.
  - exists I I; simpl.
    + apply E.
    + apply E.
    + intros a b Ha Hb x Hx. apply H. exact (e_cvx _ _ _ E a b x Ha Hb Hx).
Qed.

Lemma sum_n_mono (f : nat -> R) n m : (forall k, 0 <= f k) -> (n <= m)%nat -> sum_n f n <= sum_n f m.
Proof.
  intros H L. induction L. lra. rewrite sum_S. pose proof (H (S m)). lra.
Qed.

Lemma series_partial_le (f : nat -> R) l n : (forall k, 0 <= f k) -> is_series f l -> sum_n f n <= l.
Proof.
  intros H S. apply (is_lim_seq_le (fun _ => sum_n f n) (fun m => sum_n f (m + n)) (sum_n f n) l).
  - intros m. apply sum_n_mono; auto. lia.
  - apply is_lim_seq_const.
  - apply (is_lim_seq_incr_n (sum_n f) n l). exact S.
Qed.

(** Markov's inequality for counts whose mean is [m] times the mass of another law *)
Lemma markov (f g : nat -> R) m K : (forall k, 0 <= g k) -> 0 <= m -> is_series f 1 ->
  (forall k, INR (S k) * f (S k) = m * g k) -> (forall N, sum_n g N <= 1) ->
  1 - sum_n f K <= m / INR (S K).
Proof.
  intros Hg Hm S1 E G.
  assert (K0 : 0 < INR (S K)) by (apply lt_0_INR; lia).
  assert (B : forall j, sum_n f (S (K + j)) - sum_n f K <= m / INR (S K) * sum_n g (K + j)).
  { assert (F : forall j, f (S (K + j)) <= m / INR (S K) * g (K + j)%nat).
    { intros j. assert (0 < INR (S (K + j))) by (apply lt_0_INR; lia).
      replace (f (S (K + j))) with (m * g (K + j)%nat / INR (S (K + j))) by (rewrite <- E; field; lra).
      pose proof (Rmult_le_pos _ _ Hm (Hg (K + j)%nat)).
      replace (m / INR (S K) * g (K + j)%nat) with (m * g (K + j)%nat / INR (S K)) by (field; lra).
      apply Rmult_le_compat_l; auto. apply Rinv_le_contravar; auto. apply le_INR. lia. }
    assert (M0 : 0 <= m / INR (S K)) by (apply div_nonneg; lra).
    induction j.
    - rewrite Nat.add_0_r, sum_S. pose proof (F O) as F0. rewrite Nat.add_0_r in F0.
      apply Rle_trans with (m / INR (S K) * g K). lra. apply Rmult_le_compat_l; auto.
      destruct K. rewrite sum_O. lra. rewrite sum_S. 
      assert (0 <= sum_n g K). { clear -Hg. induction K. rewrite sum_O; auto. rewrite sum_S. pose proof (Hg (S K)). lra. } lra.
    - replace (K + S j)%nat with (S (K + j)) by lia. rewrite (sum_S f (S (K + j))), (sum_S g (K + j)).
      pose proof (F (S j)) as F1. replace (K + S j)%nat with (S (K + j)) in F1 by lia. rewrite Rmult_plus_distr_l. lra. }
  apply (is_lim_seq_le (fun j => sum_n f (S (K + j)) - sum_n f K) (fun _ => m / INR (S K)) (1 - sum_n f K) (m / INR (S K))).
  - intros j. eapply Rle_trans. apply B. rewrite <- (Rmult_1_r (m / INR (S K))) at 2.
    apply Rmult_le_compat_l. apply div_nonneg; lra. apply G.
  - apply is_lim_seq_minus'. 2: apply is_lim_seq_const.
    apply is_lim_seq_ext with (fun j => sum_n f (j + S K)). intros j; f_equal; lia.
    apply (is_lim_seq_incr_n (sum_n f) (S K) 1). exact S1.
  - apply is_lim_seq_const.
Qed.

(** A sum that is complete after finitely many terms *)
Lemma finite_series (f : nat -> R) n l : (forall k, (n < k)%nat -> f k = 0) -> sum_f_R0 f n = l -> is_series f l.
Proof.
  intros Z E. unfold is_series. apply filterlim_ext_loc with (fun _ => l); [|apply filterlim_const].
  exists n. intros m Hm. induction Hm.
  - rewrite sum_n_Reals. auto.
  - rewrite sum_S, Z by lia. rewrite Rplus_0_r. exact IHHm.
Qed.

Lemma poisson_series mu : is_series (fun k => pmf (S_poisson mu) (Z.of_nat k)) 1.
Proof.
  pose proof (is_series_scal (V:=R_NormedModule) (exp (- mu)) _ _ (is_exp_Reals mu)) as H.
  replace 1 with (scal (exp (- mu)) (exp mu)).
  2:{ unfold scal; simpl; unfold mult; simpl. rewrite <- exp_plus. rewrite Rplus_opp_l. apply exp_0. }
  revert H. apply is_series_ext. intros k. rewrite poisson_pmf. rewrite pow_n_pow. unfold scal; simpl; unfold mult; simpl.
  unfold Rdiv. ring.
Qed.

Lemma poisson_nonneg mu z : 0 <= mu -> 0 <= pmf (S_poisson mu) z.
Proof.
  intros H. unfold pmf. destruct (Z.leb 0 z); [|lra]. apply div_nonneg; [|apply pos_INR].
  apply Rmult_le_pos. left; apply exp_pos. now apply pow_le.
Qed.

Lemma neg_leb z : (z < 0)%Z -> Z.leb 0 z = false.
Proof. intros. now apply Z.leb_gt. Qed.

Lemma Poisson_mass (d : Poisson R) : 0 <= Poisson_lam d -> is_mass 0 (pmf (Poisson_dist d)).
Proof.
  intros H. split; [|split].
  - intros z. now apply poisson_nonneg.
  - intros z Hz. unfold Poisson_dist, pmf. now rewrite neg_leb.
  - apply (is_series_ext (fun k => pmf (S_poisson (Poisson_lam d)) (Z.of_nat k))). reflexivity. apply poisson_series.
Qed.

(** Negative binomial as the gamma mixture of Poissons *)
Lemma sum_mixture (f : nat -> R -> R) (l : nat -> R) (dens : R -> R) (Fa Fb : (R -> Prop) -> Prop) {FA : Filter Fa} {FB : Filter Fb} n :
  (forall k, marginal Fa Fb dens (f k) (l k)) ->
  marginal Fa Fb dens (fun t => sum_n (fun k => f k t) n) (sum_n l n).
Proof.
  intros H. unfold marginal in *. induction n.
  - rewrite sum_O. apply (is_RInt_gen_ext (fun t => f O t * dens t)); auto.
    apply filter_forall. intros [a b] x _. now rewrite sum_O.
  - rewrite sum_S. apply (is_RInt_gen_ext (fun t => sum_n (fun k => f k t) n * dens t + f (S n) t * dens t)).
    + apply filter_forall. intros [a b] x _. rewrite sum_S. exact (eq_sym (Rmult_plus_distr_r _ _ _)).
    + apply is_RInt_gen_plus_R; auto.
Qed.

Lemma nbinom_series_open n p : 0 < n -> 0 < p < 1 -> is_series (fun k => pmf (S_nbinom n p) (Z.of_nat k)) 1.
Proof.
  intros Hn Hp. set (b := p / (1 - p)). assert (Hb : 0 < b) by (apply Rdiv_lt_0_compat; lra).
  assert (Ep : b / (1 + b) = p) by (unfold b; field; lra).
  set (S := sum_n (fun k => pmf (S_nbinom n p) (Z.of_nat k))).
  assert (Hn0 : forall k, 0 <= pmf (S_nbinom n p) (Z.of_nat k)).
  { intros k. rewrite nbinom_pmf. apply Rmult_le_pos; [|apply pow_le; lra]. apply Rmult_le_pos; [|apply Rpower_nonneg].
    apply div_nonneg; [|apply pos_INR]. left. now apply rising_pos. }
  (* the part of the mass after K *)
  assert (T : forall K, 0 <= 1 - S K <= n / b / INR (Datatypes.S K)).
  { intros K.
    assert (M : marginal Fpos0 Finf (pdf (Gamma_dist (mkGamma n b))) (fun lam => sum_n (fun k => pmf (S_poisson (1 * lam)) (Z.of_nat k)) K) (S K)).
    { apply (sum_mixture (fun k lam => pmf (S_poisson (1 * lam)) (Z.of_nat k)) (fun k => pmf (S_nbinom n p) (Z.of_nat k))); try (apply FF0); try (apply FFinf).
      intros k. rewrite <- Ep. apply poisson_gamma_marginal; auto. lra. }
    assert (N : is_RInt_gen (pdf (Gamma_dist (mkGamma n b))) Fpos0 Finf 1) by (apply Gamma_density; auto).
    assert (D : is_RInt_gen (fun lam => (1 - sum_n (fun k => pmf (S_poisson (1 * lam)) (Z.of_nat k)) K) * pdf (Gamma_dist (mkGamma n b)) lam)
                  Fpos0 Finf (1 - S K)).
    { pose proof (is_RInt_gen_minus_R _ _ _ _ _ _ N M) as H. revert H. apply (is_RInt_gen_ext_on _ _ _ ends_pos).
      intros x _. ring. }
    assert (Mean : is_RInt_gen (fun lam => lam / INR (Datatypes.S K) * pdf (Gamma_dist (mkGamma n b)) lam) Fpos0 Finf (n / b / INR (Datatypes.S K))).
    { pose proof (is_RInt_gen_Gamma_scaled (n + 1) b ltac:(lra) Hb) as H.
      pose proof (Gamma_fun_pos n Hn). assert (0 < INR (Datatypes.S K)) by (apply lt_0_INR; lia).
      apply (is_RInt_gen_mult_l _ _ _ (/ INR (Datatypes.S K) * (Rpower b n / Gamma_fun n))) in H.
      rewrite Gamma_fun_succ in H by auto. rewrite Rpower_succ in H by auto.
      replace (/ INR (Datatypes.S K) * (Rpower b n / Gamma_fun n) * (n * Gamma_fun n / (Rpower b n * b))) with (n / b / INR (Datatypes.S K)) in H.
      2:{ field. repeat split; try lra. apply Rgt_not_eq, Rpower_pos. }
      revert H. apply (is_RInt_gen_ext_on _ _ _ ends_pos). intros x Hx. unfold Gamma_dist; simpl Gamma_alpha; simpl Gamma_beta.
      change (ndiv (nlit 1) b) with (1 / b). rewrite gamma_pdf by auto.
      replace (n + 1 - 1) with ((n - 1) + 1) by ring. rewrite Rpower_succ by auto. unfold Rdiv. ring. }
    assert (Bd : forall lam, 0 < lam -> 0 <= 1 - sum_n (fun k => pmf (S_poisson (1 * lam)) (Z.of_nat k)) K <= lam / INR (Datatypes.S K)).
    { intros lam Hl. pose proof (poisson_series (1 * lam)) as PS. split.
      - pose proof (series_partial_le _ _ K (fun k => poisson_nonneg (1 * lam) (Z.of_nat k) ltac:(lra)) PS). lra.
      - apply (markov _ (fun k => pmf (S_poisson (1 * lam)) (Z.of_nat k))); auto.
        + intros k. apply poisson_nonneg. lra.
        + lra.
        + intros k. rewrite !poisson_pmf. rewrite fact_simpl, mult_INR. pose proof (fact_pos k). pose proof (lt_0_INR (Datatypes.S k) ltac:(lia)).
          simpl pow. field. lra.
        + intros N0. apply series_partial_le; auto. intros k. apply poisson_nonneg. lra. }
    assert (G0 : forall x, 0 <= pdf (Gamma_dist (mkGamma n b)) x) by (apply Gamma_density; auto).
    split.
    - apply (int_le _ _ _ ends_pos (fun _ => 0) (fun lam => (1 - sum_n (fun k => pmf (S_poisson (1 * lam)) (Z.of_nat k)) K) * pdf (Gamma_dist (mkGamma n b)) lam)); auto.
      + intros x Hx. rewrite Rabs_R0. apply Rmult_le_pos; auto. now apply Bd.
      + apply (int_value _ _ _ (0 * 1)). ring. revert N. intros N. apply (is_RInt_gen_mult_l _ _ _ 0) in N.
        revert N. apply (is_RInt_gen_ext_on _ _ _ ends_pos). intros; ring.
    - apply (int_le _ _ _ ends_pos _ _ _ _) with (2 := D) (3 := Mean). intros x Hx.
      destruct (Bd x Hx) as [B1 B2]. rewrite Rabs_right. 2: apply Rle_ge, Rmult_le_pos; auto. now apply Rmult_le_compat_r. }
  assert (L : is_lim_seq (fun K => 1 - S K) 0).
  { apply is_lim_seq_le_le with (fun _ => 0) (fun K => n / b / INR (Datatypes.S K)); auto. apply is_lim_seq_const.
    apply is_lim_seq_ext with (fun K => n / b * / INR (Datatypes.S K)). reflexivity.
    replace (Finite 0) with (Rbar_mult (n / b) 0) by (simpl; f_equal; ring). apply is_lim_seq_scal_l.
    apply (is_lim_seq_incr_1 (fun k => / INR k)). replace (Finite 0) with (Rbar_inv p_infty) by reflexivity.
    apply is_lim_seq_inv. apply is_lim_seq_INR. discriminate. }
  change (is_lim_seq S 1). apply is_lim_seq_ext with (fun K => 1 - (1 - S K)). intros; ring.
  replace (Finite 1) with (Finite (1 - 0)) by (f_equal; ring). apply is_lim_seq_minus'; auto. apply is_lim_seq_const.
Qed.

Lemma nbinom_nonneg n p z : 0 < n -> 0 < p <= 1 -> 0 <= pmf (S_nbinom n p) z.
Proof.
  intros Hn Hp. unfold pmf. destruct (Z.leb 0 z); [|lra].
  apply Rmult_le_pos; [|apply pow_le; lra]. apply Rmult_le_pos; [|apply Rpower_nonneg].
  apply div_nonneg; [|apply pos_INR]. left. now apply rising_pos.
Qed.

Lemma nbinom_series n p : 0 < n -> 0 < p <= 1 -> is_series (fun k => pmf (S_nbinom n p) (Z.of_nat k)) 1.
Proof.
  intros Hn [Hp [Hp1| ->]]. now apply nbinom_series_open.
  apply (finite_series _ 0).
  - intros k Hk. rewrite nbinom_pmf, Rminus_eq_0, pow_i by lia. ring.
  - simpl sum_f_R0. change (pmf (S_nbinom n 1) (Z.of_nat 0) = 1). rewrite nbinom_pmf, Rpower_one_l. simpl. field.
Qed.

Lemma NegativeBinomial_mass (d : NegativeBinomial R) : 0 < NegativeBinomial_n d -> 0 < NegativeBinomial_p d <= 1 ->
  is_mass 0 (pmf (NegativeBinomial_dist d)).
Proof.
  intros Hn Hp. split; [|split].
  - intros z. now apply nbinom_nonneg.
  - intros z Hz. unfold NegativeBinomial_dist, pmf. now rewrite neg_leb.
  - apply (is_series_ext (fun k => pmf (S_nbinom (NegativeBinomial_n d) (NegativeBinomial_p d)) (Z.of_nat k))). reflexivity.
    now apply nbinom_series.
Qed.

(** The part of the mass of a negative binomial after [K] *)
Lemma nbinom_tail n p K : 0 < n -> 0 < p <= 1 ->
  0 <= 1 - sum_n (fun k => pmf (S_nbinom n p) (Z.of_nat k)) K <= n * (1 - p) / p / INR (S K).
Proof.
  intros Hn Hp. pose proof (nbinom_series n p Hn Hp) as S1. split.
  - pose proof (series_partial_le _ _ K (fun k => nbinom_nonneg n p (Z.of_nat k) Hn Hp) S1). lra.
  - apply (markov _ (fun k => pmf (S_nbinom (n + 1) p) (Z.of_nat k))); auto.
    + intros k. apply nbinom_nonneg; lra.
    + apply div_nonneg; [|lra]. apply Rmult_le_pos; lra.
    + intros k. rewrite !nbinom_pmf, fact_simpl, mult_INR. pose proof (fact_pos k). pose proof (lt_0_INR (S k) ltac:(lia)).
      assert (Er : rising n (S k) = n * rising (n + 1) k).
      { clear. induction k. simpl. ring. change (rising n (S (S k))) with (rising n (S k) * (n + INR (S k))). rewrite IHk.
        change (rising (n + 1) (S k)) with (rising (n + 1) k * (n + 1 + INR k)). rewrite S_INR. ring. }
      rewrite Er, Rpower_succ by lra. simpl pow. field. lra.
    + intros N. apply series_partial_le. intros k. apply nbinom_nonneg; lra. apply nbinom_series; lra.
Qed.

Lemma betanbinom_pmf n a b k : pmf (S_betanbinom n a b) (Z.of_nat k) = rising n k / INR (fact k) * Beta_fun (a + n) (b + INR k) / Beta_fun a b.
Proof.
  unfold pmf. rewrite (proj2 (Z.leb_le 0 (Z.of_nat k)) (Zle_0_nat k)), Nat2Z.id. unfold choose. now rewrite falling_rising.
Qed.

Lemma betanbinom_marginal n a b k : 0 < n -> 0 < a -> 0 < b ->
  marginal Fpos0 Fone (pdf (S_beta a b)) (fun p => pmf (S_nbinom n p) (Z.of_nat k)) (pmf (S_betanbinom n a b) (Z.of_nat k)).
Proof.
  intros Hn Ha Hb. pose proof (Beta_fun_pos a b Ha Hb). pose proof (pos_INR k).
  apply (marginal_kernel _ _ _ E01 _ _ (fun t => Rpower t (a + n - 1) * Rpower (1 - t) (b + INR k - 1))
     (rising n k / INR (fact k) / Beta_fun a b) (Beta_fun (a + n) (b + INR k))).
  - intros t Ht. rewrite nbinom_pmf, beta_pdf by auto.
    replace (a + n - 1) with (n + (a - 1)) by ring. replace (b + INR k - 1) with (INR k + (b - 1)) by ring.
    rewrite !Rpower_plus, (Rpower_INR (1 - t)) by lra. unfold Rdiv. ring.
  - apply is_RInt_gen_Beta; lra.
  - rewrite betanbinom_pmf. unfold Rdiv. ring.
Qed.

Lemma min_power m t s : 0 < m -> 0 <= t <= 1 -> t <= m -> 0 < s <= 1 -> t <= Rpower m s.
Proof.
  intros Hm Ht H Hs. destruct (Rle_dec 1 m) as [L|L].
  - apply Rle_trans with 1; [lra|]. rewrite <- (Rpower_one_l s). apply Rle_Rpower_l; lra.
  - apply Rle_trans with m; auto. rewrite <- (Rpower_1 m) at 1 by auto. unfold Rpower.
    assert (ln m < 0) by (rewrite <- ln_1; apply ln_increasing; lra).
    destruct (Req_dec s 1) as [->|]; [lra|]. left. apply exp_increasing. nra.
Qed.

Lemma betanbinom_series n a b : 0 < n -> 0 < a -> 0 < b -> is_series (fun k => pmf (S_betanbinom n a b) (Z.of_nat k)) 1.
Proof.
  intros Hn Ha Hb. set (S := sum_n (fun k => pmf (S_betanbinom n a b) (Z.of_nat k))). pose proof (Beta_fun_pos a b Ha Hb).
  set (s := a / (a + 1)).
  assert (Hs : 0 < s < 1). { unfold s. split. apply Rdiv_lt_0_compat; lra. apply Rlt_div_l; lra. }
  assert (Hsa : s < a). { unfold s. apply Rlt_div_l; nra. }
  set (C := Rpower n s * Beta_fun (a - s) (b + s) / Beta_fun a b).
  assert (N : is_RInt_gen (pdf (S_beta a b)) Fpos0 Fone 1) by now apply beta_normalised.
  assert (B0 : forall x, 0 <= pdf (S_beta a b) x) by (apply (Beta_density (mkBeta a b)); auto).
  assert (T : forall K, 0 <= 1 - S K <= C * Rpower (INR (Datatypes.S K)) (- s)).
  { intros K. assert (K0 : 0 < INR (Datatypes.S K)) by (apply lt_0_INR; lia).
    set (tail := fun p => 1 - sum_n (fun k => pmf (S_nbinom n p) (Z.of_nat k)) K).
    assert (M : marginal Fpos0 Fone (pdf (S_beta a b)) (fun p => sum_n (fun k => pmf (S_nbinom n p) (Z.of_nat k)) K) (S K)).
    { apply (sum_mixture (fun k p => pmf (S_nbinom n p) (Z.of_nat k)) (fun k => pmf (S_betanbinom n a b) (Z.of_nat k)));
        try (apply FF0); try (apply FF1). intros k. now apply betanbinom_marginal. }
    assert (D : is_RInt_gen (fun p => tail p * pdf (S_beta a b) p) Fpos0 Fone (1 - S K)).
    { pose proof (is_RInt_gen_minus_R _ _ _ _ _ _ N M) as H0. revert H0. apply (is_RInt_gen_ext_on _ _ _ E01).
      intros x _. unfold tail. ring. }
    assert (Bd : forall p, 0 < p < 1 -> 0 <= tail p <= Rpower (n * (1 - p) / p / INR (Datatypes.S K)) s).
    { intros p Hp. destruct (nbinom_tail n p K Hn ltac:(lra)) as [T0 T1]. fold (tail p) in T0, T1. split; auto.
      apply min_power; auto; try lra.
      - repeat apply Rdiv_lt_0_compat; try lra. apply Rmult_lt_0_compat; lra.
      - split; auto. unfold tail.
        pose proof (sum_n_mono (fun k => pmf (S_nbinom n p) (Z.of_nat k)) 0 K (fun k => nbinom_nonneg n p _ Hn ltac:(lra)) ltac:(lia)) as H1.
        rewrite sum_O in H1. pose proof (nbinom_nonneg n p (Z.of_nat 0) Hn ltac:(lra)). lra. }
    assert (Mean : is_RInt_gen (fun p => Rpower (n * (1 - p) / p / INR (Datatypes.S K)) s * pdf (S_beta a b) p) Fpos0 Fone
                     (C * Rpower (INR (Datatypes.S K)) (- s))).
    { pose proof (is_RInt_gen_Beta (a - s) (b + s) ltac:(lra) ltac:(lra)) as H0.
      apply (is_RInt_gen_mult_l _ _ _ (Rpower n s / Beta_fun a b * Rpower (INR (Datatypes.S K)) (- s))) in H0.
      revert H0. intros H0. apply (int_value _ _ _ _ (C * Rpower (INR (Datatypes.S K)) (- s))) in H0.
      2:{ unfold C, Rdiv. ring. }
      revert H0. apply (is_RInt_gen_ext_on _ _ _ E01). intros p Hp. rewrite beta_pdf by auto.
      rewrite !Rpower_div_base, Rpower_mult_base by (try apply Rdiv_lt_0_compat; try apply Rmult_lt_0_compat; lra).
      rewrite Rpower_Ropp. replace (a - s - 1) with (a - 1 - s) by ring. replace (b + s - 1) with (b - 1 + s) by ring.
      rewrite Rpower_plus, Rpower_minus. field. repeat split; try lra; apply Rgt_not_eq, Rpower_pos. }
    split.
    - apply (int_le _ _ _ E01 (fun _ => 0) (fun p => tail p * pdf (S_beta a b) p)); auto.
      + intros x Hx. rewrite Rabs_R0. apply Rmult_le_pos; auto. now apply Bd.
      + apply (int_value _ _ _ (0 * 1)). ring. pose proof (is_RInt_gen_mult_l _ _ _ 0 _ N) as N0.
        revert N0. apply (is_RInt_gen_ext_on _ _ _ E01). intros; ring.
    - apply (int_le _ _ _ E01 _ _ _ _) with (2 := D) (3 := Mean). intros x Hx.
      destruct (Bd x Hx) as [B1 B2]. rewrite Rabs_right. 2: apply Rle_ge, Rmult_le_pos; auto. now apply Rmult_le_compat_r. }
  assert (L : is_lim_seq (fun K => 1 - S K) 0).
  { apply is_lim_seq_le_le with (fun _ => 0) (fun K => C * Rpower (INR (Datatypes.S K)) (- s)); auto. apply is_lim_seq_const.
    replace (Finite 0) with (Rbar_mult C 0) by (simpl; f_equal; ring). apply is_lim_seq_scal_l.
    apply (is_lim_seq_incr_1 (fun k => Rpower (INR k) (- s))).
    apply (filterlim_comp _ _ _ INR (fun x => Rpower x (- s)) eventually Finf (locally 0)).
    - exact is_lim_seq_INR.
    - apply filterlim_Rpower_neg_inf. lra. }
  change (is_lim_seq S 1). apply is_lim_seq_ext with (fun K => 1 - (1 - S K)). intros; ring.
  replace (Finite 1) with (Finite (1 - 0)) by (f_equal; ring). apply is_lim_seq_minus'; auto. apply is_lim_seq_const.
Qed.

Lemma BetaNegativeBinomial_mass (rel : list nat) (d : BetaNegativeBinomial R) f :
  0 < BetaNegativeBinomial_n d -> 0 < BetaNegativeBinomial_alpha d -> 0 < BetaNegativeBinomial_beta d ->
  BetaNegativeBinomial_dist rel d = Ok f -> is_mass 0 (pmf f).
Proof.
  destruct d as [n a b]; simpl BetaNegativeBinomial_n; simpl BetaNegativeBinomial_alpha; simpl BetaNegativeBinomial_beta.
  unfold BetaNegativeBinomial_dist. destruct (tuple_lt _ _); [discriminate|]. intros Hn Ha Hb E. injection E as <-.
  simpl BetaNegativeBinomial_n; simpl BetaNegativeBinomial_alpha; simpl BetaNegativeBinomial_beta. split; [|split].
  - intros z. destruct (Z.leb_spec 0 z) as [Hz|Hz].
    + rewrite <- (Z2Nat.id z Hz), betanbinom_pmf. pose proof (pos_INR (Z.to_nat z)).
      apply div_nonneg; [|left; now apply Beta_fun_pos]. apply Rmult_le_pos; [|left; apply Beta_fun_pos; lra].
      apply div_nonneg; [|apply pos_INR]. left. now apply rising_pos.
    + unfold pmf. rewrite neg_leb by auto. lra.
  - intros z Hz. unfold pmf. now rewrite neg_leb.
  - apply (is_series_ext (fun k => pmf (S_betanbinom n a b) (Z.of_nat k))). reflexivity. now apply betanbinom_series.
Qed.

Lemma Geometric_mass (d : Geometric R) : 0 < Geometric_p d <= 1 ->
  is_mass (if Geometric_one_start d then 1 else 0) (pmf (Geometric_dist d)).
Proof.
  destruct d as [p o]; simpl Geometric_p; simpl Geometric_one_start. intros Hp.
  assert (L : Int_part (if o then nlit 0 else nlit (-1)) = if o then 0%Z else (-1)%Z).
  { destruct o; apply Int_part_IZR. }
  unfold Geometric_dist; simpl Geometric_p; simpl Geometric_one_start. cbn zeta. unfold pmf. rewrite L. split; [|split].
  - intros z. destruct (Z.leb _ _); [|lra]. apply Rmult_le_pos; [|lra]. apply pow_le. lra.
  - intros z Hz. replace (Z.leb 1 _) with false; auto. symmetry. apply Z.leb_gt. destruct o; lia.
  - assert (Hq : Rabs (1 - p) < 1) by (rewrite Rabs_right; lra).
    pose proof (is_series_scal_r p _ _ (is_series_geom (1 - p) Hq)) as H.
    replace (/ (1 - (1 - p)) * p) with 1 in H by (field; lra).
    revert H. apply is_series_ext. intros k.
    replace (Z.leb 1 _) with true. 2:{ symmetry. apply Z.leb_le. destruct o; lia. }
    do 2 f_equal. destruct o; lia.
Qed.

(** A mass function on 0..n *)
Lemma finite_mass (f : Z -> R) n : (forall z, 0 <= f z) -> (forall z, (z < 0)%Z -> f z = 0) -> (forall z, (Z.of_nat n < z)%Z -> f z = 0) ->
  sum_f_R0 (fun k => f (Z.of_nat k)) n = 1 -> is_mass 0 f.
Proof.
  intros H0 Hl Hh E. split; [|split]; auto.
  apply (is_series_ext (fun k => f (Z.of_nat k))). reflexivity. apply (finite_series _ n); auto.
  intros k Hk. apply Hh. lia.
Qed.

Lemma choose_nonneg n k : (k <= n)%nat -> 0 <= choose (INR n) k.
Proof. intros. left. now apply choose_pos. Qed.

Lemma Binomial_mass (n : nat) (p : R) : 0 <= p <= 1 -> is_mass 0 (pmf (Binomial_dist (mkBinomial (INR n) p))).
Proof.
  intros Hp. unfold Binomial_dist; simpl Binomial_n; simpl Binomial_p. apply (finite_mass _ n).
  - intros z. unfold pmf. rewrite Rnat_INR. destruct (Z.leb 0 z && _)%bool eqn:E; [|lra].
    apply andb_prop in E. destruct E as [_ E]. apply Nat.leb_le in E.
    apply Rmult_le_pos; [apply Rmult_le_pos; [now apply choose_nonneg|]|]; apply pow_le; lra.
  - intros z Hz. unfold pmf. now rewrite neg_leb.
  - intros z Hz. unfold pmf. rewrite Rnat_INR. replace (Nat.leb _ _) with false. now rewrite Bool.andb_false_r.
    symmetry. apply Nat.leb_gt. lia.
  - apply binom_total.
Qed.

Lemma BetaBinomial_mass (n : nat) (a b : R) : 0 < a -> 0 < b -> is_mass 0 (pmf (BetaBinomial_dist (mkBetaBinomial (INR n) a b))).
Proof.
  intros Ha Hb. unfold BetaBinomial_dist; simpl BetaBinomial_n; simpl BetaBinomial_alpha; simpl BetaBinomial_beta. apply (finite_mass _ n).
  - intros z. unfold pmf. rewrite Rnat_INR. destruct (Z.leb 0 z && _)%bool eqn:E; [|lra].
    apply andb_prop in E. destruct E as [_ E]. apply Nat.leb_le in E. pose proof (pos_INR (Z.to_nat z)). pose proof (le_INR _ _ E).
    apply div_nonneg; [|left; now apply Beta_fun_pos]. apply Rmult_le_pos; [now apply choose_nonneg|left; apply Beta_fun_pos; lra].
  - intros z Hz. unfold pmf. now rewrite neg_leb.
  - intros z Hz. unfold pmf. rewrite Rnat_INR. replace (Nat.leb _ _) with false. now rewrite Bool.andb_false_r.
    symmetry. apply Nat.leb_gt. lia.
  - now apply betabinom_total.
Qed.

(** Vandermonde *)
Lemma falling_rising_opp a k : falling a k = (-1) ^ k * rising (- a) k.
Proof. induction k; simpl. ring. rewrite IHk. ring. Qed.

Lemma choose_vandermonde a b k : sum_f_R0 (fun i => choose a i * choose b (k - i)) k = choose (a + b) k.
Proof.
  unfold choose. rewrite falling_rising_opp. replace (- (a + b)) with (- a + - b) by ring.
  replace ((-1) ^ k * rising (- a + - b) k / INR (fact k)) with ((-1) ^ k * (rising (- a + - b) k / INR (fact k))) by (unfold Rdiv; ring).
  rewrite <- rising_vandermonde. unfold convN. rewrite <- sum_f_R0_scal. apply sum_eq. intros i Hi.
  rewrite !falling_rising_opp. replace ((-1) ^ k) with ((-1) ^ i * (-1) ^ (k - i)). unfold Rdiv. ring.
  rewrite <- pow_add. f_equal. lia.
Qed.

Lemma falling_zero n k : (n < k)%nat -> falling (INR n) k = 0.
Proof.
  intros H. induction H. simpl. ring. simpl falling. rewrite IHle. ring.
Qed.
Lemma choose_zero n k : (n < k)%nat -> choose (INR n) k = 0.
Proof. intros H. unfold choose. rewrite falling_zero by auto. unfold Rdiv. ring. Qed.

(** [N] in the population, [k] of them successes, [n] draws *)
Lemma hypergeom_total (N k n : nat) : (k <= N)%nat -> (n <= N)%nat ->
  sum_f_R0 (fun i => pmf (S_hypergeom (INR N) (INR k) (INR n)) (Z.of_nat i)) n = 1.
Proof.
  intros Hk Hn. pose proof (choose_pos N n Hn) as P.
  apply Rmult_eq_reg_r with (choose (INR N) n); [|lra]. rewrite Rmult_1_l.
  rewrite <- sum_f_R0_mult_r. transitivity (choose (INR k + INR (N - k)) n). 2: f_equal; rewrite minus_INR by auto; ring.
  rewrite <- choose_vandermonde. apply sum_eq. intros i Hi. unfold pmf. rewrite !Rnat_INR, Nat2Z.id.
  rewrite (proj2 (Z.leb_le 0 (Z.of_nat i)) (Zle_0_nat i)). replace (INR N - INR k) with (INR (N - k)) by now rewrite minus_INR.
  destruct (Nat.leb_spec i k), (Nat.leb_spec i n), (Nat.leb_spec (n - i) (N - k)); cbn [andb]; try lia.
  - field. lra.
  - rewrite (choose_zero (N - k)) by auto. ring.
  - rewrite (choose_zero k) by auto. ring.
Qed.

Lemma Hypergeometric_mass (N k n : nat) : (k <= N)%nat -> (n <= N)%nat ->
  is_mass 0 (pmf (Hypergeometric_dist (mkHypergeometric (INR N) (INR k) (INR n)))).
Proof.
  intros Hk Hn. unfold Hypergeometric_dist; simpl Hypergeometric_N; simpl Hypergeometric_k; simpl Hypergeometric_n. apply (finite_mass _ n).
  - intros z. unfold pmf. rewrite !Rnat_INR. destruct (_ && _)%bool eqn:E; [|lra].
    repeat (apply andb_prop in E; destruct E as [E ?]). rewrite Nat.leb_le in *.
    replace (INR N - INR k) with (INR (N - k)) by now rewrite minus_INR.
    apply div_nonneg; [apply Rmult_le_pos|]; now apply choose_nonneg.
  - intros z Hz. unfold pmf. now rewrite neg_leb.
  - intros z Hz. unfold pmf. rewrite !Rnat_INR. replace (Nat.leb (Z.to_nat z) n) with false. now rewrite Bool.andb_false_r.
    symmetry. apply Nat.leb_gt. lia.
  - now apply hypergeom_total.
Qed.

(** ** Beta-geometric: the masses sum to b / (a + b) *)
Lemma BetaGeometric_total (d : BetaGeometric R) : 0 < BetaGeometric_alpha d -> 0 < BetaGeometric_beta d ->
  is_series (fun k : nat => pmf (BetaGeometric_dist d) ((if BetaGeometric_one_start d then 1 else 0) + Z.of_nat k))
    (BetaGeometric_beta d / (BetaGeometric_alpha d + BetaGeometric_beta d)).
Proof.
  destruct d as [a b o]; simpl BetaGeometric_alpha; simpl BetaGeometric_beta; simpl BetaGeometric_one_start. intros Ha Hb.
  eapply is_series_ext; [|apply (geometric_beta_predictive_mass (mkBeta a b) o Ha Hb)].
  intros k. cbv beta. rewrite Z.add_comm. reflexivity.
Qed.
Lemma BetaGeometric_not_mass (d : BetaGeometric R) : 0 < BetaGeometric_alpha d -> 0 < BetaGeometric_beta d ->
  ~ is_mass (if BetaGeometric_one_start d then 1 else 0) (pmf (BetaGeometric_dist d)).
Proof.
  intros Ha Hb (_ & _ & H). apply is_series_unique in H. pose proof (is_series_unique _ _ (BetaGeometric_total d Ha Hb)) as E.
  assert (X : BetaGeometric_beta d / (BetaGeometric_alpha d + BetaGeometric_beta d) = 1) by (rewrite <- E; exact H).
  apply (f_equal (fun t => t * (BetaGeometric_alpha d + BetaGeometric_beta d))) in X. unfold Rdiv in X.
  rewrite Rmult_assoc, Rinv_l, Rmult_1_r, Rmult_1_l in X; lra.
Qed.
