(** Functional equations of the Gamma and Beta functions, the Beta-Gamma
    relation, and the Gaussian integral. *)

From Coq Require Import Reals Lra Psatz.
From Coquelicot Require Import Coquelicot.
From Verif Require Import Spec.Special Analysis.Improper Analysis.RealAux Analysis.GammaBeta Analysis.Tonelli.
Open Scope R_scope.

Notation Fpos0 := (at_right 0).
Notation Finf := (Rbar_locally p_infty).
Notation Fminf := (Rbar_locally m_infty).

(** Linear algebra for improper integrals of real functions, without [scal]. *)
Lemma is_RInt_gen_mult_l (Fa Fb : (R -> Prop) -> Prop) {FFa : Filter Fa} {FFb : Filter Fb} (f : R -> R) (k l : R) :
  is_RInt_gen f Fa Fb l -> is_RInt_gen (fun x => k * f x) Fa Fb (k * l).
Proof. intros H. exact (is_RInt_gen_scal (V:=R_NormedModule) f k l H). Qed.

Lemma is_RInt_gen_plus_R (Fa Fb : (R -> Prop) -> Prop) {FFa : Filter Fa} {FFb : Filter Fb} (f g : R -> R) (k l : R) :
  is_RInt_gen f Fa Fb k -> is_RInt_gen g Fa Fb l -> is_RInt_gen (fun x => f x + g x) Fa Fb (k + l).
Proof. intros H G. exact (is_RInt_gen_plus (V:=R_NormedModule) f g k l H G). Qed.

Lemma is_RInt_gen_minus_R (Fa Fb : (R -> Prop) -> Prop) {FFa : Filter Fa} {FFb : Filter Fb} (f g : R -> R) (k l : R) :
  is_RInt_gen f Fa Fb k -> is_RInt_gen g Fa Fb l -> is_RInt_gen (fun x => f x - g x) Fa Fb (k - l).
Proof. intros H G. exact (is_RInt_gen_minus (V:=R_NormedModule) f g k l H G). Qed.

#[global] Instance FF0 x : Filter (at_right x) := @filter_filter _ _ (at_right_proper_filter x).
#[global] Instance FF1 x : Filter (at_left x) := @filter_filter _ _ (at_left_proper_filter x).
#[global] Instance FFinf p : Filter (Rbar_locally p) := @filter_filter _ _ (Rbar_locally_filter p).

(** ** Gamma recursion *)
Lemma filterlim_Rpower_exp_inf a : filterlim (fun t => Rpower t a * exp (- t)) Finf (locally 0).
Proof.
  set (C := exp (Rabs a * ln (2 * (Rabs a + 1)))).
  assert (Hlim : filterlim (fun t => C * exp (- (/2) * t)) Finf (locally (C * 0))).
  { apply filterlim_const_mult. apply FFinf. apply filterlim_exp_neg. lra. }
  rewrite Rmult_0_r in Hlim.
  apply (filterlim_le_le (F := Finf) (fun _ => 0) (fun t => Rpower t a * exp (-t)) (fun t => C * exp (- (/2) * t)) (Finite 0)).
  - exists 1. intros x Hx. split.
    + left. apply Rmult_lt_0_compat. apply Rpower_pos. apply exp_pos.
    + apply Rle_trans with (C * exp (x / 2) * exp (- x)).
      * apply Rmult_le_compat_r. left; apply exp_pos. apply Rpower_le_exp. lra.
      * right. rewrite Rmult_assoc, <- exp_plus. f_equal. f_equal. field.
  - apply filterlim_const.
  - exact Hlim.
Qed.

Lemma filterlim_Rpower_exp_0 a : 0 < a -> filterlim (fun t => Rpower t a * exp (- t)) Fpos0 (locally 0).
Proof.
  intros Ha.
  apply (filterlim_le_le (F := Fpos0) (fun _ => 0) (fun t => Rpower t a * exp (-t)) (fun t => Rpower t a) (Finite 0)).
  - exists (mkposreal 1 Rlt_0_1). intros x _ Hx. split.
    + left. apply Rmult_lt_0_compat. apply Rpower_pos. apply exp_pos.
    + rewrite <- (Rmult_1_r (Rpower x a)) at 2. apply Rmult_le_compat_l. left; apply Rpower_pos.
      rewrite <- exp_0. left. apply exp_increasing. lra.
  - apply filterlim_const.
  - now apply filterlim_Rpower_0.
Qed.

Lemma Gamma_fun_succ a : 0 < a -> Gamma_fun (a + 1) = a * Gamma_fun a.
Proof.
  intros Ha.
  pose proof (is_RInt_gen_Gamma (a + 1) ltac:(lra)) as H1.
  pose proof (is_RInt_gen_Gamma a Ha) as H0.
  pose proof (is_RInt_gen_minus_R _ _ _ _ _ _ (is_RInt_gen_mult_l _ _ _ a _ H0) H1) as H.
  assert (HF : is_RInt_gen (fun t => a * (Rpower t (a - 1) * exp (- t)) - Rpower t (a + 1 - 1) * exp (- t)) Fpos0 Finf (0 - 0)).
  { apply (is_RInt_gen_FTC _ _ _ ends_pos (fun t => Rpower t a * exp (- t))).
    - intros x Hx. evar_last.
      apply (is_derive_mult (fun t => Rpower t a) (fun t => exp (- t))).
      now apply is_derive_Rpower. auto_derive. auto. reflexivity. intros; apply Rmult_comm.
      unfold plus, mult; simpl. replace (a + 1 - 1) with a by ring. ring.
    - intros x Hx. apply (continuous_minus (V:=R_NormedModule) (fun t => a * (Rpower t (a - 1) * exp (- t))) (fun t => Rpower t (a + 1 - 1) * exp (- t))).
      apply (continuous_scal_r (V:=R_NormedModule) a (fun t => Rpower t (a - 1) * exp (- t))). now apply cont_gamma_integrand.
      now apply (cont_gamma_integrand (a + 1)).
    - now apply filterlim_Rpower_exp_0.
    - apply filterlim_Rpower_exp_inf. }
  pose proof (is_RInt_gen_unique_on _ _ _ ends_pos _ _ _ H HF). lra.
Qed.

Lemma Gamma_fun_1 : Gamma_fun 1 = 1.
Proof.
  assert (H : is_RInt_gen (fun t => exp (- t)) Fpos0 Finf (0 - (- 1))).
  { apply (is_RInt_gen_FTC _ _ _ ends_pos (fun t => - exp (- t))).
    - intros x Hx. auto_derive; auto. ring.
    - intros x Hx. apply continuous_exp_opp.
    - assert (Hc : continuous (fun t => - exp (- t)) 0) by (apply (ex_derive_continuous (V:=R_NormedModule)); auto_derive; auto).
      unfold continuous in Hc. rewrite Ropp_0, exp_0 in Hc.
      eapply filterlim_filter_le_1; [|exact Hc]. apply filter_le_within.
    - pose proof (filterlim_const_mult Finf (fun t => exp (- 1 * t)) (-1) 0 (filterlim_exp_neg 1 Rlt_0_1)) as H.
      rewrite Rmult_0_r in H. eapply filterlim_ext; [|exact H].
      intros x; simpl. replace (-1 * x) with (- x) by ring. ring. }
  replace (0 - -1) with 1 in H by ring.
  unfold Gamma_fun. eapply (RInt_gen_ext_on _ _ _ ends_pos); [|exact H].
  intros x Hx. simpl. replace (1 - 1) with 0 by ring. rewrite Rpower_0. ring.
Qed.

Lemma Gamma_fun_fact n : Gamma_fun (INR n + 1) = INR (fact n).
Proof.
  induction n.
  - simpl. rewrite Rplus_0_l. apply Gamma_fun_1.
  - rewrite Gamma_fun_succ.
    + rewrite S_INR, IHn. rewrite fact_simpl, mult_INR, S_INR. ring.
    + rewrite S_INR. pose proof (pos_INR n). lra.
Qed.

Lemma Gamma_fun_rising a n : 0 < a -> Gamma_fun (a + INR n) = rising a n * Gamma_fun a.
Proof.
  intros Ha. induction n.
  - simpl. rewrite Rplus_0_r. ring.
  - rewrite S_INR. replace (a + (INR n + 1)) with (a + INR n + 1) by ring.
    rewrite Gamma_fun_succ, IHn. simpl. ring. pose proof (pos_INR n). lra.
Qed.

(** ** Beta prime integral and the Beta-Gamma relation *)
Lemma filterlim_ratio_0 : filterlim (fun y => y / (1 + y)) Fpos0 Fpos0.
Proof.
  intros P [eps HP]. exists eps. intros y Hy Hy0.
  assert (0 < y / (1 + y)) by (apply Rdiv_lt_0_compat; lra).
  apply HP; auto.
  unfold ball in *; simpl in *; unfold AbsRing_ball, abs, minus, plus, opp in *; simpl in *.
  rewrite Ropp_0, Rplus_0_r in *. rewrite Rabs_right in * by lra.
  apply Rle_lt_trans with y; auto. apply Rle_div_l. lra. nra.
Qed.

Lemma filterlim_ratio_inf : filterlim (fun y => y / (1 + y)) Finf (at_left 1).
Proof.
  intros P [eps HP]. exists (/ eps). intros y Hy.
  pose proof (cond_pos eps) as He.
  assert (0 < / eps) by now apply Rinv_0_lt_compat.
  assert (Hd : y / (1 + y) = 1 - / (1 + y)) by (field; lra).
  assert (0 < / (1 + y)) by (apply Rinv_0_lt_compat; lra).
  apply HP.
  - unfold ball in *; simpl in *; unfold AbsRing_ball, abs, minus, plus, opp in *; simpl in *.
    rewrite Hd. replace (1 - / (1 + y) + - (1)) with (- / (1 + y)) by ring. rewrite Rabs_Ropp, Rabs_right by lra.
    rewrite <- (Rinv_inv eps). apply Rinv_lt_contravar; nra.
  - lra.
Qed.

Lemma is_RInt_gen_BetaPrime a b : 0 < a -> 0 < b ->
  is_RInt_gen (fun y => Rpower y (a - 1) / Rpower (1 + y) (a + b)) Fpos0 Finf (Beta_fun a b).
Proof.
  intros Ha Hb.
  pose proof (is_RInt_gen_Beta a b Ha Hb) as H.
  apply (is_RInt_gen_subst _ _ _ ends_pos (at_right 0) (at_left 1) (fun x => 0 < x < 1)
      _ (fun y => y / (1 + y)) (fun y => / (1 + y) ^ 2)) in H.
  - revert H. apply (is_RInt_gen_ext_on _ _ _ ends_pos). intros y Hy.
    replace (1 - y / (1 + y)) with (/ (1 + y)) by (field; lra).
    rewrite Rpower_div_base, Rpower_inv_base by lra.
    replace (a + b) with ((a - 1) + (b - 1) + 1 + 1) by ring.
    rewrite !Rpower_succ, Rpower_plus by lra.
    field. repeat split; try (apply Rgt_not_eq, Rpower_pos); lra.
  - apply FF0.
  - apply FF1.
  - intros x Hx. split. apply Rdiv_lt_0_compat; lra. apply Rlt_div_l; lra.
  - intros x Hx. auto_derive. lra. field. lra.
  - intros x Hx. apply (ex_derive_continuous (V:=R_NormedModule)). auto_derive. nra.
  - apply cont_beta_integrand.
  - apply filterlim_ratio_0.
  - apply filterlim_ratio_inf.
Qed.

Lemma cont2_Rpower (g : R -> R -> R) p x y : 0 < g x y -> continuity_2d_pt g x y ->
  continuity_2d_pt (fun u v => Rpower (g u v) p) x y.
Proof.
  intros Hg Cg. apply (continuity_1d_2d_pt_comp (fun t => Rpower t p) g); auto.
  apply continuity_pt_filterlim. now apply continuous_Rpower.
Qed.

Lemma cont2_exp (g : R -> R -> R) x y : continuity_2d_pt g x y ->
  continuity_2d_pt (fun u v => exp (g u v)) x y.
Proof.
  intros Cg. apply (continuity_1d_2d_pt_comp exp g); auto.
  apply derivable_continuous_pt. apply derivable_pt_exp.
Qed.

Lemma Beta_Gamma a b : 0 < a -> 0 < b -> Gamma_fun a * Gamma_fun b = Gamma_fun (a + b) * Beta_fun a b.
Proof.
  intros Ha Hb.
  set (f := fun x y => Rpower x (a + b - 1) * Rpower y (b - 1) * exp (- (x * (1 + y)))).
  set (g := fun x => Gamma_fun b * (Rpower x (a - 1) * exp (- x))).
  set (h := fun y => Gamma_fun (a + b) * (Rpower y (b - 1) / Rpower (1 + y) (b + a))).
  assert (Hh : is_RInt_gen h Fpos0 Finf (Gamma_fun (a + b) * Beta_fun b a)).
  { apply is_RInt_gen_mult_l; try typeclasses eauto. now apply is_RInt_gen_BetaPrime. }
  assert (Hg : is_RInt_gen g Fpos0 Finf (Gamma_fun b * Gamma_fun a)).
  { apply is_RInt_gen_mult_l; try typeclasses eauto. now apply is_RInt_gen_Gamma. }
  rewrite (Beta_fun_sym a b Ha Hb), (Rmult_comm (Gamma_fun a)).
  apply (is_RInt_gen_unique_on _ _ _ ends_pos h); auto.
  apply (tonelli (fun x => 0 < x) (fun x => 0 < x) _ _ _ _ ends_pos ends_pos open_pos open_pos f) with (g := g); auto.
  - intros x y Hx Hy. unfold f. apply continuity_2d_pt_mult. apply continuity_2d_pt_mult.
    apply cont2_Rpower; auto. apply continuity_2d_pt_id1.
    apply cont2_Rpower; auto. apply continuity_2d_pt_id2.
    apply cont2_exp. apply continuity_2d_pt_opp. apply continuity_2d_pt_mult. apply continuity_2d_pt_id1.
    apply continuity_2d_pt_plus. apply continuity_2d_pt_const. apply continuity_2d_pt_id2.
  - intros x y _ _. unfold f. left. apply Rmult_lt_0_compat. apply Rmult_lt_0_compat; apply Rpower_pos. apply exp_pos.
  - intros x Hx. apply (continuous_scal_r (V:=R_NormedModule) (Gamma_fun b) (fun t => Rpower t (a - 1) * exp (- t))). now apply cont_gamma_integrand.
  - intros y Hy. apply (continuous_scal_r (V:=R_NormedModule) (Gamma_fun (a+b)) (fun y => Rpower y (b - 1) / Rpower (1 + y) (b + a))).
    apply (continuous_mult (fun t => Rpower t (b-1)) (fun t => / Rpower (1 + t) (b + a))).
    now apply continuous_Rpower.
    apply continuous_ext_loc with (fun t => Rpower (1 + t) (- (b + a))).
    { apply filter_forall. intros z. apply Rpower_Ropp. }
    apply (continuous_comp (fun t => 1 + t) (fun t => Rpower t (- (b+a)))).
    apply (ex_derive_continuous (V:=R_NormedModule)). auto_derive; auto. apply continuous_Rpower. lra.
  - intros x Hx. unfold f, g.
    replace (Gamma_fun b * (Rpower x (a - 1) * exp (- x))) with ((Rpower x (a + b - 1) * exp (-x)) * (Gamma_fun b / Rpower x b)).
    2:{ replace (a + b - 1) with ((a - 1) + b) by ring. rewrite Rpower_plus. field. apply Rgt_not_eq, Rpower_pos. }
    apply (is_RInt_gen_ext_on _ _ _ ends_pos (fun y => (Rpower x (a + b - 1) * exp (-x)) * (Rpower y (b - 1) * exp (- (x * y))))).
    + intros y Hy. replace (- (x * (1 + y))) with (- x + - (x * y)) by ring. rewrite exp_plus. ring.
    + apply is_RInt_gen_mult_l; try typeclasses eauto. now apply is_RInt_gen_Gamma_scaled.
  - intros y Hy. unfold f, h.
    replace (Gamma_fun (a + b) * (Rpower y (b - 1) / Rpower (1 + y) (b + a)))
      with (Rpower y (b - 1) * (Gamma_fun (a + b) / Rpower (1 + y) (a + b))).
    2:{ rewrite (Rplus_comm b a). field. apply Rgt_not_eq, Rpower_pos. }
    apply (is_RInt_gen_ext_on _ _ _ ends_pos (fun x => Rpower y (b - 1) * (Rpower x (a + b - 1) * exp (- ((1 + y) * x))))).
    + intros x Hx. replace (x * (1 + y)) with ((1 + y) * x) by ring. ring.
    + apply is_RInt_gen_mult_l; try typeclasses eauto. apply is_RInt_gen_Gamma_scaled; lra.
Qed.

Lemma Beta_fun_Gamma a b : 0 < a -> 0 < b -> Beta_fun a b = Gamma_fun a * Gamma_fun b / Gamma_fun (a + b).
Proof.
  intros Ha Hb. rewrite (Beta_Gamma a b) by auto. field.
  apply Rgt_not_eq, Gamma_fun_pos. lra.
Qed.

Lemma Beta_fun_succ_l a b : 0 < a -> 0 < b -> Beta_fun (a + 1) b = Beta_fun a b * (a / (a + b)).
Proof.
  intros Ha Hb. rewrite !Beta_fun_Gamma by lra. replace (a + 1 + b) with (a + b + 1) by ring.
  rewrite !Gamma_fun_succ by lra. field. split. lra. apply Rgt_not_eq, Gamma_fun_pos. lra.
Qed.

Lemma Beta_fun_succ_r a b : 0 < a -> 0 < b -> Beta_fun a (b + 1) = Beta_fun a b * (b / (a + b)).
Proof.
  intros Ha Hb. rewrite !Beta_fun_Gamma by lra. replace (a + (b + 1)) with (a + b + 1) by ring.
  rewrite !Gamma_fun_succ by lra. field. split. lra. apply Rgt_not_eq, Gamma_fun_pos. lra.
Qed.

(** ** The Gaussian integral *)
Lemma filterlim_atan_inf : filterlim atan Finf (locally (PI / 2)).
Proof.
  intros P [eps HP].
  set (e := Rmin eps (PI / 2)). pose proof PI_RGT_0 as Hpi.
  assert (He : 0 < e) by (apply Rmin_pos; [apply cond_pos|lra]).
  assert (He2 : e <= PI / 2) by apply Rmin_r. assert (He3 : e <= eps) by apply Rmin_l.
  exists (tan (PI / 2 - e)). intros x Hx. apply HP.
  unfold ball; simpl; unfold AbsRing_ball, abs, minus, plus, opp; simpl.
  apply atan_increasing in Hx. rewrite atan_tan in Hx by lra.
  pose proof (atan_bound x). apply Rabs_def1; lra.
Qed.

Lemma filterlim_sqrt_inf : filterlim sqrt Finf Finf.
Proof.
  intros P [M HP]. exists (Rmax 0 M * Rmax 0 M). intros x Hx. apply HP.
  apply Rle_lt_trans with (Rmax 0 M). apply Rmax_r.
  rewrite <- (sqrt_square (Rmax 0 M)) by apply Rmax_l. apply sqrt_lt_1_alt. split.
  apply Rle_0_sqr. auto.
Qed.

Lemma Beta_half_half : Beta_fun (/2) (/2) = PI.
Proof.
  pose proof (is_RInt_gen_BetaPrime (/2) (/2) ltac:(lra) ltac:(lra)) as H.
  apply (is_RInt_gen_unique_on _ _ _ ends_pos _ _ _ H).
  replace PI with (2 * (PI / 2) - 2 * 0) by lra.
  apply (is_RInt_gen_FTC _ _ _ ends_pos (fun y => 2 * atan (sqrt y))).
  - intros x Hx. assert (Hs : 0 < sqrt x) by now apply sqrt_lt_R0. evar_last.
    + apply (is_derive_scal (fun y => atan (sqrt y)) x 2).
      apply (is_derive_comp atan sqrt). apply is_derive_Reals. apply derivable_pt_lim_atan.
      apply is_derive_Reals. now apply derivable_pt_lim_sqrt.
    + unfold scal; simpl; unfold mult; simpl.
      replace (/ 2 + / 2) with 1 by lra. rewrite Rpower_1 by lra.
      replace (/ 2 - 1) with (- / 2) by lra. rewrite Rpower_Ropp, Rpower_sqrt by lra.
      rewrite Rmult_1_r, sqrt_def by lra. field. split; lra.
  - intros x Hx. apply (continuous_mult (fun t => Rpower t (/2-1)) (fun t => / Rpower (1 + t) (/2 + /2))).
    now apply continuous_Rpower.
    apply continuous_ext_loc with (fun t => Rpower (1 + t) (- (/2 + /2))).
    { apply filter_forall. intros z. apply Rpower_Ropp. }
    apply (continuous_comp (fun t => 1 + t) (fun t => Rpower t (- (/2+/2)))).
    apply (ex_derive_continuous (V:=R_NormedModule)). auto_derive; auto. apply continuous_Rpower. lra.
  - apply filterlim_const_mult. apply FF0.
    assert (Hc : continuous (fun y => atan (sqrt y)) 0).
    { apply (continuous_comp sqrt atan). apply continuous_sqrt. rewrite sqrt_0.
      apply continuity_pt_filterlim. apply derivable_continuous_pt. apply derivable_pt_atan. }
    unfold continuous in Hc. rewrite sqrt_0, atan_0 in Hc.
    eapply filterlim_filter_le_1; [|exact Hc]. apply filter_le_within.
  - apply filterlim_const_mult. apply FFinf.
    eapply filterlim_comp. apply filterlim_sqrt_inf. apply filterlim_atan_inf.
Qed.

Lemma Gamma_half : Gamma_fun (/2) = sqrt PI.
Proof.
  pose proof (Beta_Gamma (/2) (/2) ltac:(lra) ltac:(lra)) as H.
  replace (/2 + /2) with 1 in H by lra. rewrite Gamma_fun_1, Beta_half_half in H.
  pose proof (Gamma_fun_pos (/2) ltac:(lra)).
  rewrite <- (sqrt_square (Gamma_fun (/2))) by lra. f_equal. lra.
Qed.

Lemma filterlim_sq_0 : filterlim (fun x => x ^ 2) Fpos0 Fpos0.
Proof.
  intros P [eps HP].
  assert (Hd : 0 < Rmin 1 eps) by (apply Rmin_pos; [lra|apply cond_pos]).
  exists (mkposreal _ Hd). intros y Hy Hy0.
  unfold ball in Hy; simpl in Hy; unfold AbsRing_ball, abs, minus, plus, opp in Hy; simpl in Hy.
  rewrite Ropp_0, Rplus_0_r, Rabs_right in Hy by lra.
  pose proof (Rmin_l 1 eps). pose proof (Rmin_r 1 eps).
  apply HP. unfold ball; simpl; unfold AbsRing_ball, abs, minus, plus, opp; simpl.
  rewrite Ropp_0, Rplus_0_r, Rabs_right by nra. nra. simpl. nra.
Qed.

Lemma filterlim_sq_inf : filterlim (fun x => x ^ 2) Finf Finf.
Proof. intros P [M HP]. exists (Rmax 1 M). intros x Hx. apply HP. pose proof (Rmax_l 1 M). pose proof (Rmax_r 1 M). simpl. nra. Qed.

Lemma is_RInt_gen_gauss_half : is_RInt_gen (fun x => exp (- x ^ 2)) Fpos0 Finf (sqrt PI / 2).
Proof.
  pose proof (is_RInt_gen_Gamma (/2) ltac:(lra)) as H.
  rewrite Gamma_half in H.
  apply (is_RInt_gen_subst _ _ _ ends_pos Fpos0 Finf (fun x => 0 < x) _ (fun x => x ^ 2) (fun x => 2 * x)) in H.
  - apply (is_RInt_gen_mult_l _ _ _ (/2)) in H. 
    replace (sqrt PI / 2) with (/2 * sqrt PI) by (unfold Rdiv; ring).
    revert H. apply (is_RInt_gen_ext_on _ _ _ ends_pos). intros x Hx.
    assert (E : Rpower (x ^ 2) (/2 - 1) = / x).
    { replace (/2 - 1) with (- / 2) by lra. rewrite Rpower_Ropp, Rpower_sqrt by nra.
      f_equal. replace (x ^ 2) with (x * x) by ring. apply sqrt_square. lra. }
    rewrite E. field. lra.
  - apply FF0.
  - apply FFinf.
  - intros x Hx. simpl. nra.
  - intros x Hx. auto_derive; auto. ring.
  - intros x Hx. apply (ex_derive_continuous (V:=R_NormedModule)). auto_derive; auto.
  - apply (cont_gamma_integrand (/2)).
  - apply filterlim_sq_0.
  - apply filterlim_sq_inf.
Qed.
