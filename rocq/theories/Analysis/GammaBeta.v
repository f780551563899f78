(** Convergence and positivity of the Gamma and Beta integrals, the Gamma
    recursion, and the scaled and reciprocal forms used by the densities. *)

From Coq Require Import Reals Lra Psatz.
From Coquelicot Require Import Coquelicot.
From Verif Require Import Spec.Special Analysis.Improper Analysis.RealAux.
Open Scope R_scope.

Definition gamma_integrand (a t : R) := Rpower t (a - 1) * exp (- t).
Definition beta_integrand (a b t : R) := Rpower t (a - 1) * Rpower (1 - t) (b - 1).

Lemma continuous_exp_lin c x : continuous (fun t => exp (c * t)) x.
Proof. apply (ex_derive_continuous (V:=R_NormedModule)). auto_derive; auto. Qed.

Lemma continuous_exp_opp x : continuous (fun t => exp (- t)) x.
Proof. apply (ex_derive_continuous (V:=R_NormedModule)). auto_derive; auto. Qed.

Lemma cont_gamma_integrand a : cont_on (gamma_integrand a) (fun x => 0 < x).
Proof.
  intros x Hx. apply (continuous_mult (fun t => Rpower t (a-1)) (fun t => exp (- t))).
  now apply continuous_Rpower. apply continuous_exp_opp.
Qed.

Lemma gamma_integrand_pos a x : 0 < gamma_integrand a x.
Proof. apply Rmult_lt_0_compat. apply Rpower_pos. apply exp_pos. Qed.

Lemma cont_sub f (I J : R -> Prop) : cont_on f I -> (forall x, J x -> I x) -> cont_on f J.
Proof. unfold cont_on; auto. Qed.

(** integral of a power over (0, c] *)
Lemma is_RInt_gen_power_0 a c : 0 < a -> 0 < c ->
  is_RInt_gen (fun t => Rpower t (a - 1)) (at_right 0) (at_point c) (Rpower c a / a).
Proof.
  intros Ha Hc.
  replace (Rpower c a / a) with (Rpower c a / a - / a * 0) by lra.
  pose proof (ends_left _ _ _ ends_pos c Hc) as E.
  apply (is_RInt_gen_FTC _ _ _ E (fun t => Rpower t a / a)).
  - intros x [Hx _]. evar_last.
    + apply (is_derive_scal_l (fun t => Rpower t a) x (a * Rpower x (a-1)) (/ a)).
      now apply is_derive_Rpower.
    + unfold scal; simpl; unfold mult; simpl. field. lra.
  - intros x [Hx _]. now apply continuous_Rpower.
  - eapply filterlim_ext. 2: apply (filterlim_const_mult _ (fun t => Rpower t a) (/ a) 0).
    + intros x; simpl. field. lra.
    + now apply filterlim_Rpower_0.
  - intros P HP. apply locally_singleton in HP. exact HP.
Qed.

(** integral of an exponential over [c, oo) *)
Lemma is_RInt_gen_exp_inf k c : 0 < k ->
  is_RInt_gen (fun t => exp (- k * t)) (at_point c) (Rbar_locally p_infty) (exp (- k * c) / k).
Proof.
  intros Hk.
  replace (exp (- k * c) / k) with ((- / k) * 0 - (- exp (- k * c) / k)) by (field; lra).
  pose proof (ends_right _ _ _ ends_line c I) as E.
  apply (is_RInt_gen_FTC _ _ _ E (fun t => - exp (- k * t) / k)).
  - intros x _. auto_derive; auto. field. lra.
  - intros x _. apply continuous_exp_lin.
  - intros P HP. apply locally_singleton in HP. exact HP.
  - eapply filterlim_ext. 2: apply (filterlim_const_mult _ (fun t => exp (- k * t)) (- / k) 0).
    + intros x; simpl. field. lra.
    + now apply filterlim_exp_neg.
Qed.

Lemma ex_gamma_integral a : 0 < a ->
  exists l, is_RInt_gen (gamma_integrand a) (at_right 0) (Rbar_locally p_infty) l.
Proof.
  intros Ha.
  assert (H01 : 0 < 1) by lra.
  pose proof (ends_left _ _ _ ends_pos 1 H01) as EL.
  pose proof (ends_right _ _ _ ends_pos 1 H01) as ER.
  destruct (dominated_ex_RInt_gen _ _ _ EL (gamma_integrand a) (fun t => Rpower t (a-1)) (Rpower 1 a / a))
    as [l1 [H1 _]].
  - apply (cont_sub _ _ _ (cont_gamma_integrand a)). tauto.
  - intros x [Hx _]. now apply continuous_Rpower.
  - intros x [Hx _]. split. left; apply gamma_integrand_pos.
    unfold gamma_integrand. rewrite <- (Rmult_1_r (Rpower x (a-1))) at 2.
    apply Rmult_le_compat_l. apply Rpower_nonneg.
    rewrite <- exp_0. left; apply exp_increasing; lra.
  - now apply is_RInt_gen_power_0.
  - set (C := exp (Rabs (a-1) * ln (2 * (Rabs (a-1) + 1)))).
    destruct (dominated_ex_RInt_gen _ _ _ ER (gamma_integrand a)
               (fun t => C * exp (- /2 * t)) (C * (exp (- /2 * 1) / (/2)))) as [l2 [H2 _]].
    + apply (cont_sub _ _ _ (cont_gamma_integrand a)). tauto.
    + intros x _. apply (continuous_scal_r (V:=R_NormedModule) C (fun t => exp (- /2 * t))). apply continuous_exp_lin.
    + intros x [Hx Hx1]. split. left; apply gamma_integrand_pos.
      unfold gamma_integrand. apply Rle_trans with (C * exp (x/2) * exp (- x)).
      * apply Rmult_le_compat_r. left; apply exp_pos. now apply Rpower_le_exp.
      * right. rewrite Rmult_assoc, <- exp_plus. do 2 f_equal. field.
    + apply (is_RInt_gen_scal (V:=R_NormedModule)).
      apply is_RInt_gen_exp_inf. lra.
    + exists (plus l1 l2).
      apply (is_RInt_gen_Chasles (V:=R_CompleteNormedModule) (gamma_integrand a) 1 l1 l2); auto.
Qed.

Lemma is_RInt_gen_Gamma a : 0 < a ->
  is_RInt_gen (fun t => Rpower t (a - 1) * exp (- t)) (at_right 0) (Rbar_locally p_infty) (Gamma_fun a).
Proof.
  intros Ha. destruct (ex_gamma_integral a Ha) as [l Hl].
  apply (RInt_gen_correct (V:=R_CompleteNormedModule)). exists l. exact Hl.
Qed.

Lemma Gamma_fun_pos a : 0 < a -> 0 < Gamma_fun a.
Proof.
  intros Ha. apply (is_RInt_gen_pos _ _ _ ends_pos (gamma_integrand a)).
  - apply cont_gamma_integrand.
  - intros; apply gamma_integrand_pos.
  - exists 1, 2. lra.
  - now apply is_RInt_gen_Gamma.
Qed.

(** Scaled Gamma integral. *)
Lemma filterlim_mult_pos_0 b : 0 < b -> filterlim (fun t => b * t) (at_right 0) (at_right 0).
Proof.
  intros Hb P [eps HP].
  assert (Hd : 0 < eps / b) by (apply Rdiv_lt_0_compat; auto; apply cond_pos).
  exists (mkposreal _ Hd). intros y Hy Hy0.
  unfold ball in Hy; simpl in Hy; unfold AbsRing_ball, abs, minus, plus, opp in Hy; simpl in Hy.
  apply HP.
  - unfold ball; simpl; unfold AbsRing_ball, abs, minus, plus, opp; simpl.
    rewrite Ropp_0, Rplus_0_r in Hy |- *. rewrite Rabs_right in Hy by lra.
    rewrite Rabs_right by nra. apply Rmult_lt_compat_l with (r := b) in Hy; auto.
    replace (b * (eps / b)) with (pos eps) in Hy by (field; lra). lra.
  - nra.
Qed.

Lemma filterlim_mult_pos_inf b : 0 < b ->
  filterlim (fun t => b * t) (Rbar_locally p_infty) (Rbar_locally p_infty).
Proof.
  intros Hb P [M HP]. exists (M / b). intros x Hx. apply HP.
  apply Rmult_lt_compat_l with (r := b) in Hx; auto.
  replace (b * (M / b)) with M in Hx by (field; lra). lra.
Qed.

Lemma is_RInt_gen_Gamma_scaled a b : 0 < a -> 0 < b ->
  is_RInt_gen (fun t => Rpower t (a - 1) * exp (- (b * t))) (at_right 0) (Rbar_locally p_infty)
    (Gamma_fun a / Rpower b a).
Proof.
  intros Ha Hb.
  assert (H : is_RInt_gen (fun t => b * gamma_integrand a (b * t)) (at_right 0) (Rbar_locally p_infty) (Gamma_fun a)).
  { apply (is_RInt_gen_subst _ _ _ ends_pos (at_right 0) (Rbar_locally p_infty) (fun x => 0 < x)
      (gamma_integrand a) (fun t => b * t) (fun _ => b)).
    - apply (at_right_proper_filter 0).
    - apply Rbar_locally_filter.
    - intros; now apply Rmult_lt_0_compat.
    - intros x _. auto_derive; auto. ring.
    - intros x _. apply continuous_const.
    - apply cont_gamma_integrand.
    - now apply filterlim_mult_pos_0.
    - now apply filterlim_mult_pos_inf.
    - now apply is_RInt_gen_Gamma. }
  apply (is_RInt_gen_scal (V:=R_NormedModule) _ (/ Rpower b a)) in H.
  replace (Gamma_fun a / Rpower b a) with (scal (/ Rpower b a) (Gamma_fun a)).
  2:{ unfold scal; simpl; unfold mult; simpl. unfold Rdiv. ring. }
  revert H. apply (is_RInt_gen_ext_on _ _ _ ends_pos). intros x Hx.
  unfold scal; simpl; unfold mult; simpl. unfold gamma_integrand.
  rewrite Rpower_mult_base by auto. rewrite (Rpower_pred b a Hb).
  field. split. lra. apply Rgt_not_eq, Rpower_pos.
Qed.

(** Inverse-gamma form: substitution v = 1/t. *)
Lemma filterlim_inv_0 : filterlim Rinv (at_right 0) (Rbar_locally p_infty).
Proof. apply filterlim_Rinv_0_right. Qed.

Lemma filterlim_inv_inf : filterlim Rinv (Rbar_locally p_infty) (at_right 0).
Proof.
  intros P [eps HP]. exists (/ eps). intros x Hx.
  assert (He := cond_pos eps). assert (0 < / eps) by now apply Rinv_0_lt_compat.
  assert (Hx0 : 0 < / x) by (apply Rinv_0_lt_compat; lra).
  apply HP; auto.
  unfold ball; simpl; unfold AbsRing_ball, abs, minus, plus, opp; simpl.
  rewrite Ropp_0, Rplus_0_r, Rabs_right by lra.
  rewrite <- (Rinv_inv eps). apply Rinv_lt_contravar; auto.
  apply Rmult_lt_0_compat; lra.
Qed.

Lemma is_RInt_gen_InvGamma a b : 0 < a -> 0 < b ->
  is_RInt_gen (fun v => Rpower v (- a - 1) * exp (- (b / v))) (at_right 0) (Rbar_locally p_infty)
    (Gamma_fun a / Rpower b a).
Proof.
  intros Ha Hb.
  pose proof (is_RInt_gen_Gamma_scaled a b Ha Hb) as H.
  pose proof (at_right_proper_filter 0) as PF0.
  pose proof (Rbar_locally_filter p_infty) as PFi.
  apply (is_RInt_gen_swap (V:=R_NormedModule)) in H.
  apply (is_RInt_gen_subst _ _ _ ends_pos (Rbar_locally p_infty) (at_right 0) (fun x => 0 < x)
      _ Rinv (fun t => - / t ^ 2)) in H.
  - apply (is_RInt_gen_opp (V:=R_NormedModule)) in H. rewrite opp_opp in H.
    revert H. apply (is_RInt_gen_ext_on _ _ _ ends_pos). intros x Hx.
    unfold opp; simpl. rewrite Rpower_inv_base by auto.
    rewrite (Rpower_pred x a Hx). rewrite (Rpower_pred x (- a) Hx), Rpower_Ropp.
    unfold Rdiv. field. split. lra. apply Rgt_not_eq, Rpower_pos.
  - apply Rbar_locally_filter.
  - apply PF0.
  - intros; now apply Rinv_0_lt_compat.
  - intros x Hx. auto_derive. lra. field. lra.
  - intros x Hx. apply (ex_derive_continuous (V:=R_NormedModule)). auto_derive. nra.
  - intros x Hx. apply (continuous_mult (fun t => Rpower t (a-1)) (fun t => exp (- (b * t)))).
    now apply continuous_Rpower. apply (ex_derive_continuous (V:=R_NormedModule)). auto_derive; auto.
  - apply filterlim_inv_0.
  - apply filterlim_inv_inf.
Qed.

(** ** Beta *)

Lemma cont_beta_integrand a b : cont_on (beta_integrand a b) (fun x => 0 < x < 1).
Proof.
  intros x Hx. apply (continuous_mult (fun t => Rpower t (a-1)) (fun t => Rpower (1 - t) (b-1))).
  - now apply continuous_Rpower.
  - apply (continuous_comp (fun t => 1 - t) (fun t => Rpower t (b-1))).
    + apply (ex_derive_continuous (V:=R_NormedModule)). auto_derive; auto.
    + apply continuous_Rpower. lra.
Qed.

Lemma beta_integrand_pos a b x : 0 < beta_integrand a b x.
Proof. apply Rmult_lt_0_compat; apply Rpower_pos. Qed.

(** On (0, 1/2] the other factor is bounded. *)
Lemma Rpower_bounded_half y c : /2 <= y <= 1 -> Rpower y c <= exp (Rabs c).
Proof.
  intros Hy. unfold Rpower.
  assert (Hl : - ln 2 <= ln y <= 0).
  { split.
    - rewrite <- ln_Rinv by lra. destruct (proj1 Hy) as [H|H]; [left; apply ln_increasing; lra | right; now rewrite H].
    - rewrite <- ln_1. destruct (proj2 Hy) as [H|H]; [left; apply ln_increasing; lra | right; now rewrite H]. }
  assert (Hln2 : ln 2 <= 1) by (pose proof (ln_le_sub1 2); lra).
  assert (c * ln y <= Rabs c).
  { unfold Rabs; destruct (Rcase_abs c); nra. }
  destruct H as [H|H]; [left; now apply exp_increasing | right; now rewrite H].
Qed.

Lemma ex_beta_half a b : 0 < a -> 0 < b ->
  exists l, is_RInt_gen (beta_integrand a b) (at_right 0) (at_point (/2)) l.
Proof.
  intros Ha Hb.
  assert (Hh : 0 < /2 < 1) by lra.
  pose proof (ends_left _ _ _ (ends_open 0 1 Rlt_0_1) (/2) Hh) as EL.
  destruct (dominated_ex_RInt_gen _ _ _ EL (beta_integrand a b)
     (fun t => exp (Rabs (b-1)) * Rpower t (a-1)) (exp (Rabs (b-1)) * (Rpower (/2) a / a))) as [l [Hl _]].
  - apply (cont_sub _ _ _ (cont_beta_integrand a b)). tauto.
  - intros x [Hx _]. apply (continuous_scal_r (V:=R_NormedModule) _ (fun t => Rpower t (a-1))).
    now apply continuous_Rpower.
  - intros x [Hx Hx2]. split. left; apply beta_integrand_pos.
    unfold beta_integrand. rewrite Rmult_comm. apply Rmult_le_compat_r. apply Rpower_nonneg.
    apply Rpower_bounded_half. lra.
  - apply (is_RInt_gen_scal (V:=R_NormedModule)).
    pose proof (is_RInt_gen_power_0 a (/2) Ha) as H. apply H. lra.
  - exists l. exact Hl.
Qed.

Lemma filterlim_one_minus : filterlim (fun t => 1 - t) (at_left 1) (at_right 0).
Proof.
  intros P [eps HP]. exists eps. intros y Hy Hy1.
  unfold ball in Hy; simpl in Hy; unfold AbsRing_ball, abs, minus, plus, opp in Hy; simpl in Hy.
  apply HP.
  - unfold ball; simpl; unfold AbsRing_ball, abs, minus, plus, opp; simpl.
    rewrite Ropp_0, Rplus_0_r. unfold Rminus. rewrite <- (Rabs_Ropp). eapply Rle_lt_trans. 2: exact Hy.
    right. f_equal. ring.
  - lra.
Qed.

Lemma filterlim_one_minus' : filterlim (fun t => 1 - t) (at_right 0) (at_left 1).
Proof.
  intros P [eps HP]. exists eps. intros y Hy Hy1.
  unfold ball in Hy; simpl in Hy; unfold AbsRing_ball, abs, minus, plus, opp in Hy; simpl in Hy.
  apply HP.
  - unfold ball; simpl; unfold AbsRing_ball, abs, minus, plus, opp; simpl.
    rewrite <- (Rabs_Ropp). eapply Rle_lt_trans. 2: exact Hy.
    right. f_equal. ring.
  - lra.
Qed.

Lemma ex_beta_half' a b : 0 < a -> 0 < b ->
  exists l, is_RInt_gen (beta_integrand a b) (at_point (/2)) (at_left 1) l.
Proof.
  intros Ha Hb. destruct (ex_beta_half b a Hb Ha) as [l Hl].
  assert (Hh : 0 < /2 < 1) by lra.
  pose proof (ends_right _ _ _ (ends_open 0 1 Rlt_0_1) (/2) Hh) as ER.
  pose proof (at_right_proper_filter 0) as PF0.
  apply (is_RInt_gen_swap (V:=R_NormedModule)) in Hl.
  exists l.
  apply (is_RInt_gen_subst _ _ _ ER (at_point (/2)) (at_right 0) (fun x => 0 < x < 1)
      _ (fun t => 1 - t) (fun t => -1)) in Hl.
  - apply (is_RInt_gen_opp (V:=R_NormedModule)) in Hl. rewrite opp_opp in Hl.
    revert Hl. apply (is_RInt_gen_ext_on _ _ _ ER). intros x [Hx _].
    unfold opp; simpl. unfold beta_integrand. replace (1 - (1 - x)) with x by ring. ring.
  - apply at_point_filter.
  - apply PF0.
  - intros x [Hx _]; lra.
  - intros x _. auto_derive; auto; simpl; lra.
  - intros x _. apply continuous_const.
  - apply cont_beta_integrand.
  - intros P HP. unfold at_point, filtermap in *. now replace (1 - /2) with (/2) by lra.
  - apply filterlim_one_minus.
Qed.

Lemma is_RInt_gen_Beta a b : 0 < a -> 0 < b ->
  is_RInt_gen (fun t => Rpower t (a - 1) * Rpower (1 - t) (b - 1)) (at_right 0) (at_left 1) (Beta_fun a b).
Proof.
  intros Ha Hb.
  apply (RInt_gen_correct (V:=R_CompleteNormedModule)).
  destruct (ex_beta_half a b Ha Hb) as [l1 H1]. destruct (ex_beta_half' a b Ha Hb) as [l2 H2].
  pose proof (at_right_proper_filter 0). pose proof (at_left_proper_filter 1).
  exists (plus l1 l2).
  apply (is_RInt_gen_Chasles (V:=R_CompleteNormedModule) (beta_integrand a b) (/2) l1 l2); auto.
Qed.

Lemma Beta_fun_pos a b : 0 < a -> 0 < b -> 0 < Beta_fun a b.
Proof.
  intros Ha Hb. apply (is_RInt_gen_pos _ _ _ (ends_open 0 1 Rlt_0_1) (beta_integrand a b)).
  - apply cont_beta_integrand.
  - intros; apply beta_integrand_pos.
  - exists (/4), (/2). lra.
  - now apply is_RInt_gen_Beta.
Qed.

Lemma Beta_fun_sym a b : 0 < a -> 0 < b -> Beta_fun a b = Beta_fun b a.
Proof.
  intros Ha Hb.
  pose proof (is_RInt_gen_Beta b a Hb Ha) as H.
  pose proof (at_right_proper_filter 0) as PF0. pose proof (at_left_proper_filter 1) as PF1.
  apply (is_RInt_gen_swap (V:=R_NormedModule)) in H.
  apply (is_RInt_gen_subst _ _ _ (ends_open 0 1 Rlt_0_1) (at_left 1) (at_right 0) (fun x => 0 < x < 1)
      _ (fun t => 1 - t) (fun t => -1)) in H.
  - apply (is_RInt_gen_opp (V:=R_NormedModule)) in H. rewrite opp_opp in H.
    unfold Beta_fun at 1. eapply (RInt_gen_ext_on _ _ _ (ends_open 0 1 Rlt_0_1)); [|exact H].
    intros x Hx. unfold opp; simpl. replace (1 - (1 - x)) with x by ring. ring.
  - apply PF1.
  - apply PF0.
  - intros x Hx; lra.
  - intros x _. auto_derive; auto; simpl; try lra.
  - intros x _. apply continuous_const.
  - apply cont_beta_integrand.
  - apply filterlim_one_minus'.
  - apply filterlim_one_minus.
Qed.
