(** Ratios of Gamma functions for large arguments, and the multivariate t density for many degrees of freedom. *)

From Coq Require Import Reals Lra Lia Psatz.
From Coquelicot Require Import Coquelicot.
From Verif Require Import Model.Num Model.Py Model.Dists Model.ScipyDist Model.Models.
From Verif Require Import Spec.Special Spec.Densities Spec.Joint Analysis.GammaBeta Analysis.GammaFacts Analysis.RealAux.
From Verif Require Import Proofs.Pdfs Proofs.Limits Proofs.LimitPredictive.
Open Scope R_scope.

Definition half_step (d : R) : R := Gamma_fun ((d + 1) / 2) / Gamma_fun (d / 2) / sqrt (d / 2).

Lemma half_step_pdf d : 0 < d -> pdf (S_t d 0 1) 0 * sqrt (2 * PI) = half_step d.
Proof.
  intros Hd. unfold pdf, locscale, std_t, half_step.
  replace (1 + ((0 - 0) / 1) ^ 2 / d) with 1 by (field; lra).
  assert (E : forall e, Rpower 1 e = 1) by (intros e; unfold Rpower; rewrite ln_1, Rmult_0_r; apply exp_0).
  rewrite ?E. pose proof PI_RGT_0.
  assert (0 < Gamma_fun (d / 2)) by (apply Gamma_fun_pos; lra).
  assert (S1 : sqrt (2 * PI) <> 0) by (apply Rgt_not_eq, sqrt_lt_R0; lra).
  assert (S2 : sqrt (d / 2) <> 0) by (apply Rgt_not_eq, sqrt_lt_R0; lra).
  replace (PI * d) with (2 * PI * (d / 2)) by field. rewrite (sqrt_mult (2 * PI) (d / 2)) by lra. field. repeat split; try assumption; lra.
Qed.

Section Steps.
Variable d : nat -> R.
Hypothesis d_pos : forall N, 0 < d N.
Hypothesis d_inf : is_lim_seq d p_infty.

Lemma half_step_shift : is_lim_seq (fun N => half_step (d N + 2)) 1.
Proof.
  set (prior := VIG (mkInverseGamma 1 1)).
  assert (L : is_lim_seq (fun N => pdf (StudentT_dist (normal_known_mean_predictive 0 (normal_known_mean 0 (d N) (d N) 0 prior))) 0)
                (pdf (Normal_dist (mkNormal 0 (sqrt 1))) 0)).
  { apply (normal_known_mean_predictive_limit d (fun _ => 0) d prior 0 1 0); try assumption.
    - intros N. left. apply d_pos.
    - simpl. lra.
    - lra.
    - intros N. specialize (d_pos N). lra.
    - apply is_lim_seq_ext with (fun N => d N / d N); [intros N; f_equal; ring|now apply self_ratio1]. }
  rewrite sqrt_1 in L. assert (S1 : 0 < sqrt (2 * PI)) by (apply sqrt_lt_R0; pose proof PI_RGT_0; lra).
  replace 1 with (pdf (Normal_dist (mkNormal 0 1)) 0 * sqrt (2 * PI)).
  2:{ unfold Normal_dist. cbn [Normal_mu Normal_sigma]. rewrite norm_pdf by lra. replace (- (0 - 0) ^ 2 / (2 * 1 ^ 2)) with 0 by field. rewrite exp_0. field. lra. }
  apply is_lim_seq_ext with (fun N => pdf (StudentT_dist (normal_known_mean_predictive 0 (normal_known_mean 0 (d N) (d N) 0 prior))) 0 * sqrt (2 * PI)).
  - intros N. specialize (d_pos N). rewrite <- half_step_pdf by lra. f_equal.
    unfold StudentT_dist, normal_known_mean_predictive, normal_known_mean, prior, normal_known_mean_inverse_gamma_prior. simpl.
    replace (2 * (1 + d N / 2)) with (d N + 2) by field. f_equal.
    replace (_ / _) with 1; [apply sqrt_1|field; lra].
  - apply is_lim_seq_mult'; [exact L|apply is_lim_seq_const].
Qed.

Lemma ratio_1 (e : nat -> R) (c : R) : (forall N, 0 < e N) -> is_lim_seq e p_infty -> 0 <= c -> is_lim_seq (fun N => e N / (e N + c)) 1.
Proof.
  intros He Hi Hc. replace 1 with (/ (1 + c * 0)) by field. apply is_lim_seq_ext with (fun N => / (1 + c * / e N)).
  - intros N. specialize (He N). field. lra.
  - apply (is_lim_seq_inv _ (Finite (1 + c * 0))); [|intros Q; injection Q; lra].
    apply is_lim_seq_plus'; [apply is_lim_seq_const|]. apply (is_lim_seq_scal_l _ c 0). now apply lim_inv_inf.
Qed.
Lemma sqrt_to_1 (u : nat -> R) : is_lim_seq u 1 -> is_lim_seq (fun N => sqrt (u N)) 1.
Proof.
  intros H. replace (Finite 1) with (Finite (sqrt 1)) by now rewrite sqrt_1.
  apply (is_lim_seq_continuous sqrt u 1); [apply continuity_pt_sqrt; lra|exact H].
Qed.

Lemma half_step_lim : is_lim_seq (fun N => half_step (d N)) 1.
Proof.
  replace 1 with (1 * (1 * / 1)) by field.
  apply is_lim_seq_ext with (fun N => half_step (d N + 2) * (d N / (d N + 1) * / sqrt (d N / (d N + 2)))).
  - intros N. specialize (d_pos N). unfold half_step.
    replace ((d N + 2 + 1) / 2) with ((d N + 1) / 2 + 1) by field. replace ((d N + 2) / 2) with (d N / 2 + 1) by field.
    rewrite !Gamma_fun_succ by lra.
    replace (d N / (d N + 2)) with (d N / 2 / (d N / 2 + 1)) by (field; lra). rewrite (sqrt_div (d N / 2) (d N / 2 + 1)) by lra.
    assert (0 < Gamma_fun (d N / 2)) by (apply Gamma_fun_pos; lra).
    assert (sqrt (d N / 2) <> 0) by (apply Rgt_not_eq, sqrt_lt_R0; lra).
    assert (sqrt (d N / 2 + 1) <> 0) by (apply Rgt_not_eq, sqrt_lt_R0; lra).
    field. repeat split; try assumption; lra.
  - apply is_lim_seq_mult'; [exact half_step_shift|]. apply is_lim_seq_mult'; [now apply ratio_1; auto; lra|].
    apply (is_lim_seq_inv _ (Finite 1)); [|intros Q; injection Q; lra]. apply sqrt_to_1, ratio_1; auto; lra.
Qed.
End Steps.

(** Gamma(z + n/2) / Gamma(z) is z^(n/2) for large z *)
Lemma gamma_ratio (d : nat -> R) n : (forall N, 0 < d N) -> is_lim_seq d p_infty ->
  is_lim_seq (fun N => Gamma_fun ((d N + INR n) / 2) / Gamma_fun (d N / 2) / sqrt (d N / 2) ^ n) 1.
Proof.
  intros Hd Hi. induction n as [|n IH].
  - apply is_lim_seq_ext with (fun _ => 1); [|apply is_lim_seq_const]. intros N. specialize (Hd N).
    assert (0 < Gamma_fun (d N / 2)) by (apply Gamma_fun_pos; lra). simpl. rewrite Rplus_0_r. field. lra.
  - replace 1 with (1 * (1 * / 1)) by field. pose proof (pos_INR n) as Hn.
    apply is_lim_seq_ext with (fun N => Gamma_fun ((d N + INR n) / 2) / Gamma_fun (d N / 2) / sqrt (d N / 2) ^ n * (half_step (d N + INR n) * / sqrt (d N / (d N + INR n)))).
    + intros N. specialize (Hd N). rewrite S_INR. unfold half_step.
      replace (d N / (d N + INR n)) with (d N / 2 / ((d N + INR n) / 2)) by (field; lra). rewrite (sqrt_div (d N / 2) ((d N + INR n) / 2)) by lra.
      replace ((d N + INR n + 1) / 2) with ((d N + (INR n + 1)) / 2) by field.
      assert (0 < Gamma_fun (d N / 2)) by (apply Gamma_fun_pos; lra).
      assert (0 < Gamma_fun ((d N + INR n) / 2)) by (apply Gamma_fun_pos; lra).
      assert (S1 : sqrt (d N / 2) <> 0) by (apply Rgt_not_eq, sqrt_lt_R0; lra).
      assert (sqrt ((d N + INR n) / 2) <> 0) by (apply Rgt_not_eq, sqrt_lt_R0; lra).
      assert (sqrt (d N / 2) ^ n <> 0) by now apply pow_nonzero.
      simpl pow. field. repeat split; try assumption; lra.
    + apply is_lim_seq_mult'; [exact IH|]. apply is_lim_seq_mult'.
      * apply (half_step_lim (fun N => d N + INR n)); [intros N; specialize (Hd N); lra|].
        apply is_lim_seq_ext with (fun N => INR n + d N); [intros N; ring|]. now apply lim_add_inf.
      * apply (is_lim_seq_inv _ (Finite 1)); [|intros Q; injection Q; lra]. apply sqrt_to_1, ratio_1; auto.
Qed.

Lemma ln_upper y : 0 < y -> ln y <= y - 1.
Proof.
  intros Hy. destruct (Req_dec y 1) as [->|Ny]; [rewrite ln_1; lra|].
  rewrite <- (ln_exp (y - 1)). left. apply ln_increasing; [exact Hy|]. pose proof (exp_ineq1 (y - 1)). lra.
Qed.
Lemma ln_lower t : 0 <= t -> t / (1 + t) <= ln (1 + t).
Proof.
  intros Ht. pose proof (ln_upper (/ (1 + t)) ltac:(apply Rinv_0_lt_compat; lra)) as H. rewrite ln_Rinv in H by lra.
  replace (t / (1 + t)) with (1 - / (1 + t)) by (field; lra). lra.
Qed.

(** (1 + q/d)^(-(d + n)/2) tends to exp (-q/2) *)
Lemma kernel_limit (d q : nat -> R) (q0 c : R) : (forall N, 0 < d N) -> is_lim_seq d p_infty -> (forall N, 0 <= q N) -> is_lim_seq q q0 -> 0 <= c ->
  is_lim_seq (fun N => Rpower (1 + q N / d N) (- ((d N + c) / 2))) (exp (- (q0 / 2))).
Proof.
  intros Hd Hi Hq Hl Hc. unfold Rpower.
  apply (is_lim_seq_continuous exp (fun N => - ((d N + c) / 2) * ln (1 + q N / d N))); [apply derivable_continuous_pt, derivable_pt_exp|].
  apply is_lim_seq_ext with (fun N => - ((d N + c) / 2 * ln (1 + q N / d N))); [intros N; ring|].
  apply (is_lim_seq_opp (fun N => (d N + c) / 2 * ln (1 + q N / d N)) (q0 / 2)).
  pose proof (lim_inv_inf d Hi) as Hw.
  apply is_lim_seq_le_le with (fun N => q N / 2 * ((1 + c * / d N) * / (1 + q N * / d N))) (fun N => q N / 2 * (1 + c * / d N)).
  - intros N. specialize (Hd N). specialize (Hq N).
    assert (0 <= q N / d N) by (apply Rmult_le_pos; [exact Hq|left; now apply Rinv_0_lt_compat]).
    pose proof (ln_lower (q N / d N) H) as L. pose proof (ln_upper (1 + q N / d N) ltac:(lra)) as K.
    assert (0 <= (d N + c) / 2) by lra. split.
    + replace (q N / 2 * ((1 + c * / d N) * / (1 + q N * / d N))) with ((d N + c) / 2 * (q N / d N / (1 + q N / d N))).
      * now apply Rmult_le_compat_l.
      * field. split; [|lra]. replace (d N + q N) with (d N + q N) by ring. lra.
    + replace (q N / 2 * (1 + c * / d N)) with ((d N + c) / 2 * (q N / d N)) by (field; lra). apply Rmult_le_compat_l; lra.
  - replace (q0 / 2) with (q0 / 2 * ((1 + c * 0) * / (1 + q0 * 0))) by (field; lra).
    apply is_lim_seq_mult'; [apply is_lim_seq_mult'; [exact Hl|apply is_lim_seq_const]|]. apply is_lim_seq_mult'.
    + apply is_lim_seq_plus'; [apply is_lim_seq_const|apply (is_lim_seq_scal_l _ c 0 Hw)].
    + apply (is_lim_seq_inv _ (Finite (1 + q0 * 0))); [|intros Q; injection Q; lra].
      apply is_lim_seq_plus'; [apply is_lim_seq_const|]. now apply is_lim_seq_mult'.
  - replace (q0 / 2) with (q0 / 2 * (1 + c * 0)) by ring.
    apply is_lim_seq_mult'; [apply is_lim_seq_mult'; [exact Hl|apply is_lim_seq_const]|].
    apply is_lim_seq_plus'; [apply is_lim_seq_const|apply (is_lim_seq_scal_l _ c 0 Hw)].
Qed.
