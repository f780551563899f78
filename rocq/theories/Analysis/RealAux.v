(** Facts about [Rpower], [exp], [ln] used by the integrals. *)

From Coq Require Import Reals Lra Psatz.
From Coquelicot Require Import Coquelicot.
Open Scope R_scope.

Lemma Rpower_pos x y : 0 < Rpower x y.
Proof. apply exp_pos. Qed.

Lemma Rpower_nonneg x y : 0 <= Rpower x y.
Proof. left; apply exp_pos. Qed.

Lemma is_derive_Rpower a x : 0 < x -> is_derive (fun t => Rpower t a) x (a * Rpower x (a - 1)).
Proof.
  intros Hx. unfold Rpower. auto_derive; auto.
  - rewrite !Rmult_1_l. replace ((a - 1) * ln x) with (a * ln x - ln x) by ring.
    unfold Rminus. rewrite exp_plus, exp_Ropp, exp_ln by auto. field. lra.
Qed.

Lemma continuous_Rpower a x : 0 < x -> continuous (fun t => Rpower t a) x.
Proof. intros Hx. apply (ex_derive_continuous (V:=R_NormedModule)). exists (a * Rpower x (a-1)). now apply is_derive_Rpower. Qed.

Lemma Rpower_mult_base x y a : 0 < x -> 0 < y -> Rpower (x * y) a = Rpower x a * Rpower y a.
Proof. intros. unfold Rpower. rewrite ln_mult by auto. rewrite <- exp_plus. f_equal. ring. Qed.

Lemma Rpower_inv_base x a : 0 < x -> Rpower (/ x) a = / Rpower x a.
Proof. intros. unfold Rpower. rewrite ln_Rinv by auto. rewrite <- exp_Ropp. f_equal. ring. Qed.

Lemma Rpower_div_base x y a : 0 < x -> 0 < y -> Rpower (x / y) a = Rpower x a / Rpower y a.
Proof.
  intros. unfold Rdiv. rewrite Rpower_mult_base, Rpower_inv_base; auto.
  now apply Rinv_0_lt_compat.
Qed.

Lemma Rpower_opp_base x a : Rpower x (- a) = / Rpower x a.
Proof. apply Rpower_Ropp. Qed.

Lemma Rpower_minus x a b : Rpower x (a - b) = Rpower x a / Rpower x b.
Proof. unfold Rminus. rewrite Rpower_plus, Rpower_Ropp. reflexivity. Qed.

Lemma Rpower_succ x a : 0 < x -> Rpower x (a + 1) = Rpower x a * x.
Proof. intros. rewrite Rpower_plus, Rpower_1; auto. Qed.

Lemma Rpower_pred x a : 0 < x -> Rpower x (a - 1) = Rpower x a / x.
Proof. intros. rewrite Rpower_minus, Rpower_1; auto. Qed.

Lemma Rpower_0 x : Rpower x 0 = 1.
Proof. unfold Rpower. rewrite Rmult_0_l. apply exp_0. Qed.

Lemma Rpower_one_l a : Rpower 1 a = 1.
Proof. unfold Rpower. rewrite ln_1, Rmult_0_r. apply exp_0. Qed.

Lemma Rpower_sqrt x : 0 < x -> Rpower x (/ 2) = sqrt x.
Proof. intros. now apply Rpower_sqrt. Qed.

Lemma Rpower_half_sq x : 0 < x -> Rpower x (/2) * Rpower x (/2) = x.
Proof. intros. rewrite <- Rpower_plus. replace (/2 + /2) with 1 by field. now apply Rpower_1. Qed.

Lemma Rpower_INR x n : 0 < x -> Rpower x (INR n) = x ^ n.
Proof. apply Rpower_pow. Qed.

Lemma ln_le_sub1 x : 0 < x -> ln x <= x - 1.
Proof.
  intros Hx. pose proof (exp_ineq1_le (ln x)) as H. rewrite exp_ln in H; lra.
Qed.

Lemma Rpower_le_exp a t : 1 <= t ->
  Rpower t a <= exp (Rabs a * ln (2 * (Rabs a + 1))) * exp (t / 2).
Proof.
  intros Ht. unfold Rpower. rewrite <- exp_plus.
  assert (Habs := Rabs_pos a).
  assert (Hk : 0 < 2 * (Rabs a + 1)) by lra.
  assert (Hln0 : 0 <= ln t).
  { rewrite <- ln_1. destruct Ht as [Ht| <-]; [left; apply ln_increasing; lra | right; reflexivity]. }
  assert (Hln : ln t <= t / (2 * (Rabs a + 1)) - 1 + ln (2 * (Rabs a + 1))).
  { replace (ln t) with (ln (t / (2 * (Rabs a + 1))) + ln (2 * (Rabs a + 1))).
    - assert (0 < t / (2 * (Rabs a + 1))) by (apply Rdiv_lt_0_compat; lra).
      pose proof (ln_le_sub1 _ H). lra.
    - rewrite <- ln_mult; try lra. f_equal. field. lra. apply Rdiv_lt_0_compat; lra. }
  assert (H1 : a * ln t <= Rabs a * ln t).
  { apply Rmult_le_compat_r; auto. apply Rle_abs. }
  assert (H2 : Rabs a * ln t <= Rabs a * (t / (2 * (Rabs a + 1)) - 1 + ln (2 * (Rabs a + 1)))).
  { apply Rmult_le_compat_l; auto. }
  assert (H3 : Rabs a * (t / (2 * (Rabs a + 1))) <= t / 2).
  { replace (Rabs a * (t / (2 * (Rabs a + 1)))) with (t / 2 * (Rabs a / (Rabs a + 1))) by (field; lra).
    rewrite <- (Rmult_1_r (t/2)) at 2. apply Rmult_le_compat_l; try lra.
    apply Rle_div_l; lra. }
  assert (H4 : a * ln t <= Rabs a * ln (2 * (Rabs a + 1)) + t / 2) by nra.
  destruct H4 as [H4|H4]; [left; now apply exp_increasing | right; now rewrite H4].
Qed.

(** Limits *)
Lemma filterlim_Rpower_0 a : 0 < a -> filterlim (fun t => Rpower t a) (at_right 0) (locally 0).
Proof.
  intros Ha P [eps HP].
  assert (Hd : 0 < Rpower eps (/ a)) by apply Rpower_pos.
  exists (mkposreal _ Hd). intros y Hy Hy0.
  unfold ball in Hy; simpl in Hy; unfold AbsRing_ball, abs, minus, plus, opp in Hy; simpl in Hy.
  apply HP. unfold ball; simpl; unfold AbsRing_ball, abs, minus, plus, opp; simpl.
  apply Rabs_def2 in Hy. rewrite Ropp_0, Rplus_0_r in Hy |- *.
  rewrite Rabs_right by (apply Rle_ge, Rpower_nonneg).
  replace (pos eps) with (Rpower (Rpower eps (/ a)) a).
  - apply Rlt_Rpower_l; lra.
  - rewrite Rpower_mult. rewrite Rinv_l by lra. apply Rpower_1. apply cond_pos.
Qed.

Lemma filterlim_exp_neg c : 0 < c -> filterlim (fun t => exp (- c * t)) (Rbar_locally p_infty) (locally 0).
Proof.
  intros Hc P [eps HP].
  exists (- ln eps / c). intros x Hx. apply HP.
  unfold ball; simpl; unfold AbsRing_ball, abs, minus, plus, opp; simpl.
  rewrite Ropp_0, Rplus_0_r, Rabs_right by (left; apply exp_pos).
  rewrite <- (exp_ln eps) at 1 by apply cond_pos.
  apply exp_increasing. apply Rmult_lt_compat_r with (r := c) in Hx; auto.
  replace (- ln eps / c * c) with (- ln eps) in Hx by (field; lra). lra.
Qed.

Lemma filterlim_Rpower_neg_inf a : a < 0 -> filterlim (fun t => Rpower t a) (Rbar_locally p_infty) (locally 0).
Proof.
  intros Ha P [eps HP].
  exists (exp (ln eps / a)). intros x Hx. apply HP.
  unfold ball; simpl; unfold AbsRing_ball, abs, minus, plus, opp; simpl.
  rewrite Ropp_0, Rplus_0_r, Rabs_right by (left; apply exp_pos).
  pose proof (exp_pos (ln eps / a)) as He.
  unfold Rpower. rewrite <- (exp_ln eps) at 1 by apply cond_pos.
  apply exp_increasing.
  assert (H : ln eps / a < ln x). { rewrite <- (ln_exp (ln eps / a)). apply ln_increasing; auto. }
  apply Rmult_lt_gt_compat_neg_l with (r := a) in H; auto.
  replace (a * (ln eps / a)) with (ln eps) in H by (field; lra). lra.
Qed.

Lemma filterlim_const_mult (F : (R -> Prop) -> Prop) {FF : Filter F} (f : R -> R) (c l : R) :
  filterlim f F (locally l) -> filterlim (fun x => c * f x) F (locally (c * l)).
Proof.
  intros H. eapply filterlim_comp. exact H. apply (filterlim_scal_r (V := R_NormedModule) c l).
Qed.
