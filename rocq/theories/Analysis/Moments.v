(** Moments of the Gaussian, Beta, Gamma densities. *)

From Coq Require Import Reals Lra Psatz.
From Coquelicot Require Import Coquelicot.
From Verif Require Import Analysis.Improper Analysis.RealAux Analysis.GammaBeta Analysis.GammaFacts Analysis.Gauss.
Open Scope R_scope.

Lemma xgauss_bound x : x <> 0 -> Rabs (x * exp (- x ^ 2 / 2)) <= 2 / Rabs x.
Proof.
  intros Hx. assert (Ha : 0 < Rabs x) by now apply Rabs_pos_lt.
  rewrite Rabs_mult, (Rabs_right (exp _)) by (left; apply exp_pos).
  replace (- x ^ 2 / 2) with (- (x ^ 2 / 2)) by field. rewrite exp_Ropp.
  assert (H : x ^ 2 / 2 <= exp (x ^ 2 / 2)). { pose proof (exp_ineq1_le (x ^ 2 / 2)). lra. }
  assert (E : x ^ 2 = Rabs x * Rabs x). { unfold Rabs. destruct (Rcase_abs x); ring. }
  assert (0 < x ^ 2 / 2) by nra.
  assert (/ exp (x ^ 2 / 2) <= / (x ^ 2 / 2)) by (apply Rinv_le_contravar; auto).
  apply Rle_trans with (Rabs x * / (x ^ 2 / 2)). nra. rewrite E. right. field. lra.
Qed.

Lemma filterlim_xgauss_inf : filterlim (fun x => x * exp (- x ^ 2 / 2)) Finf (locally 0).
Proof.
  intros P [eps HP]. pose proof (cond_pos eps). exists (2 / eps). intros x Hx. apply HP.
  assert (0 < 2 / eps) by (apply Rdiv_lt_0_compat; lra).
  unfold ball; simpl; unfold AbsRing_ball, abs, minus, plus, opp; simpl. rewrite Ropp_0, Rplus_0_r.
  eapply Rle_lt_trans. apply xgauss_bound. lra. rewrite Rabs_right by lra.
  apply Rlt_div_l; try lra. apply Rmult_lt_compat_l with (r := eps) in Hx; auto.
  replace (eps * (2 / eps)) with 2 in Hx by (field; lra). lra.
Qed.

Lemma filterlim_xgauss_minf : filterlim (fun x => x * exp (- x ^ 2 / 2)) Fminf (locally 0).
Proof.
  intros P [eps HP]. pose proof (cond_pos eps). exists (- (2 / eps)). intros x Hx. apply HP.
  assert (0 < 2 / eps) by (apply Rdiv_lt_0_compat; lra).
  unfold ball; simpl; unfold AbsRing_ball, abs, minus, plus, opp; simpl. rewrite Ropp_0, Rplus_0_r.
  eapply Rle_lt_trans. apply xgauss_bound. lra. rewrite Rabs_left by lra.
  apply Rlt_div_l; try lra. assert (2 / eps < - x) by lra. apply Rmult_lt_compat_l with (r := eps) in H1; auto.
  replace (eps * (2 / eps)) with 2 in H1 by (field; lra). lra.
Qed.

Lemma gauss_bound x : x <> 0 -> exp (- x ^ 2 / 2) <= 2 / (x ^ 2).
Proof.
  intros Hx. replace (- x ^ 2 / 2) with (- (x ^ 2 / 2)) by field. rewrite exp_Ropp.
  assert (H : x ^ 2 / 2 <= exp (x ^ 2 / 2)). { pose proof (exp_ineq1_le (x ^ 2 / 2)). lra. }
  assert (0 < x ^ 2 / 2) by nra.
  replace (2 / x ^ 2) with (/ (x ^ 2 / 2)) by (field; lra). apply Rinv_le_contravar; auto.
Qed.

Lemma filterlim_gauss_inf : filterlim (fun x => exp (- x ^ 2 / 2)) Finf (locally 0).
Proof.
  intros P [eps HP]. pose proof (cond_pos eps). exists (1 + 2 / eps). intros x Hx. apply HP.
  assert (0 < 2 / eps) by (apply Rdiv_lt_0_compat; lra).
  unfold ball; simpl; unfold AbsRing_ball, abs, minus, plus, opp; simpl. rewrite Ropp_0, Rplus_0_r.
  rewrite Rabs_right by (left; apply exp_pos).
  eapply Rle_lt_trans. apply gauss_bound. lra.
  assert (2 < eps * x). { apply Rmult_lt_compat_l with (r := eps) in Hx; auto. replace (eps * (1 + 2 / eps)) with (eps + 2) in Hx by (field; lra). lra. }
  apply Rlt_div_l; nra.
Qed.

Lemma filterlim_opp_minf : filterlim Ropp Fminf Finf.
Proof. intros P [M HM]. exists (- M). intros x Hx. apply HM. lra. Qed.

Lemma filterlim_gauss_minf : filterlim (fun x => exp (- x ^ 2 / 2)) Fminf (locally 0).
Proof.
  apply filterlim_ext with (fun x => exp (- (- x) ^ 2 / 2)). intros x. do 2 f_equal. ring.
  apply (filterlim_comp _ _ _ Ropp (fun x => exp (- x ^ 2 / 2)) Fminf Finf (locally 0)).
  apply filterlim_opp_minf. apply filterlim_gauss_inf.
Qed.

Lemma is_RInt_gen_gauss_1 : is_RInt_gen (fun x => x * exp (- x ^ 2 / 2)) Fminf Finf 0.
Proof.
  replace 0 with (- 0 - - 0) by ring.
  apply (is_RInt_gen_FTC _ _ _ ends_line (fun x => - exp (- x ^ 2 / 2))).
  - intros x _. auto_derive; auto. simpl. unfold Rdiv. field.
  - intros x _. apply (ex_derive_continuous (V := R_NormedModule)). auto_derive; auto.
  - apply (filterlim_comp _ _ _ (fun x => exp (- x ^ 2 / 2)) Ropp _ (locally 0)). apply filterlim_gauss_minf.
    apply (filterlim_opp (V := R_NormedModule)).
  - apply (filterlim_comp _ _ _ (fun x => exp (- x ^ 2 / 2)) Ropp _ (locally 0)). apply filterlim_gauss_inf.
    apply (filterlim_opp (V := R_NormedModule)).
Qed.

Lemma is_RInt_gen_gauss_0 : is_RInt_gen (fun x => exp (- x ^ 2 / 2)) Fminf Finf (sqrt (2 * PI)).
Proof.
  pose proof (is_RInt_gen_gauss_prec 1 0 Rlt_0_1) as H. replace (2 * PI / 1) with (2 * PI) in H by field.
  revert H. apply (is_RInt_gen_ext_on _ _ _ ends_line). intros x _. f_equal. rewrite Rminus_0_r. field.
Qed.

Lemma is_RInt_gen_gauss_2 : is_RInt_gen (fun x => x ^ 2 * exp (- x ^ 2 / 2)) Fminf Finf (sqrt (2 * PI)).
Proof.
  pose proof is_RInt_gen_gauss_0 as H0.
  assert (H : is_RInt_gen (fun x => (1 - x ^ 2) * exp (- x ^ 2 / 2)) Fminf Finf (0 - 0)).
  { apply (is_RInt_gen_FTC _ _ _ ends_line (fun x => x * exp (- x ^ 2 / 2))).
    - intros x _. auto_derive; auto. simpl. unfold Rdiv. field.
    - intros x _. apply (ex_derive_continuous (V := R_NormedModule)). auto_derive; auto.
    - apply filterlim_xgauss_minf.
    - apply filterlim_xgauss_inf. }
  pose proof (is_RInt_gen_minus_R _ _ _ _ _ _ H0 H) as H2. rewrite Rminus_0_r, Rminus_0_r in H2.
  revert H2. apply (is_RInt_gen_ext_on _ _ _ ends_line). intros x _. ring.
Qed.
