(** First and second moments of the Gauss and Student kernels on the line. *)

From Coq Require Import Reals Lra.
From Coquelicot Require Import Coquelicot.
From Verif Require Import Spec.Special Analysis.Improper Analysis.RealAux Analysis.GammaBeta Analysis.GammaFacts Analysis.Gauss Analysis.Moments Analysis.TKernel.
Local Open Scope R_scope.

(** ** Gauss *)
Lemma gauss_scaled (k : nat) l s m q : 0 < s ->
  (forall x, continuous (fun x => x ^ k * exp (- x ^ 2 / 2)) x) ->
  is_RInt_gen (fun x => x ^ k * exp (- x ^ 2 / 2)) Fminf Finf l ->
  is_RInt_gen (fun x => (x - m) ^ k * exp (- (q + s * (x - m) ^ 2) / 2)) Fminf Finf (exp (- q / 2) * l / sqrt s / sqrt s ^ k).
Proof.
  intros Hs Hc H. assert (Hr : 0 < sqrt s) by now apply sqrt_lt_R0.
  assert (Hk : 0 < sqrt s ^ k) by now apply pow_lt.
  apply (is_RInt_gen_affine _ (sqrt s) m) in H; auto.
  apply (is_RInt_gen_mult_l _ _ _ (exp (- q / 2) / sqrt s ^ k)) in H.
  replace (exp (- q / 2) * l / sqrt s / sqrt s ^ k) with (exp (- q / 2) / sqrt s ^ k * (l / sqrt s)) by (field; lra).
  revert H. apply (is_RInt_gen_ext_on _ _ _ ends_line). intros x _.
  replace (exp (- (q + s * (x - m) ^ 2) / 2)) with (exp (- q / 2) * exp (- (sqrt s * (x - m)) ^ 2 / 2)).
  - rewrite Rpow_mult_distr. field. lra.
  - rewrite <- exp_plus. f_equal. rewrite Rpow_mult_distr, pow2_sqrt by lra. field.
Qed.

Lemma gauss_moment0 s m q : 0 < s ->
  is_RInt_gen (fun x => exp (- (q + s * (x - m) ^ 2) / 2)) Fminf Finf (sqrt (2 * PI) * exp (- q / 2) / sqrt s).
Proof.
  intros Hs. assert (Hr : 0 < sqrt s) by now apply sqrt_lt_R0.
  pose proof (gauss_scaled 0 (sqrt (2 * PI)) s m q Hs) as H.
  replace (sqrt (2 * PI) * exp (- q / 2) / sqrt s) with (exp (- q / 2) * sqrt (2 * PI) / sqrt s / sqrt s ^ 0) by (simpl; field; lra).
  refine (is_RInt_gen_ext_on _ _ _ ends_line _ _ _ _ (H _ _)).
  - intros x _. simpl. ring.
  - intros x. apply (ex_derive_continuous (V := R_NormedModule)). auto_derive; auto.
  - refine (is_RInt_gen_ext_on _ _ _ ends_line _ _ _ _ is_RInt_gen_gauss_0). intros x _. simpl. ring.
Qed.
Lemma gauss_moment1 s m q : 0 < s ->
  is_RInt_gen (fun x => (x - m) * exp (- (q + s * (x - m) ^ 2) / 2)) Fminf Finf 0.
Proof.
  intros Hs. assert (Hr : 0 < sqrt s) by now apply sqrt_lt_R0.
  pose proof (gauss_scaled 1 0 s m q Hs) as H.
  replace 0 with (exp (- q / 2) * 0 / sqrt s / sqrt s ^ 1) by (simpl; field; lra).
  refine (is_RInt_gen_ext_on _ _ _ ends_line _ _ _ _ (H _ _)).
  - intros x _. simpl. ring.
  - intros x. apply (ex_derive_continuous (V := R_NormedModule)). auto_derive; auto.
  - refine (is_RInt_gen_ext_on _ _ _ ends_line _ _ _ _ is_RInt_gen_gauss_1). intros x _. simpl. ring.
Qed.
Lemma gauss_moment2 s m q : 0 < s ->
  is_RInt_gen (fun x => (x - m) ^ 2 * exp (- (q + s * (x - m) ^ 2) / 2)) Fminf Finf (sqrt (2 * PI) * exp (- q / 2) / (s * sqrt s)).
Proof.
  intros Hs. assert (Hr : 0 < sqrt s) by now apply sqrt_lt_R0.
  replace (sqrt (2 * PI) * exp (- q / 2) / (s * sqrt s)) with (exp (- q / 2) * sqrt (2 * PI) / sqrt s / sqrt s ^ 2)
    by (rewrite pow2_sqrt by lra; field; lra).
  apply gauss_scaled; auto.
  - intros x. apply (ex_derive_continuous (V := R_NormedModule)). auto_derive; auto.
  - apply is_RInt_gen_gauss_2.
Qed.

(** ** Student *)
Lemma t_base_pos sg s y : 0 < sg -> 0 < s -> 0 < sg + s * y ^ 2.
Proof. intros. assert (0 <= s * y ^ 2) by (apply Rmult_le_pos; [lra|apply pow2_ge_0]). lra. Qed.

(** y^2 at either end of the line, and negative powers there *)
Lemma filterlim_quad_inf sg s m : 0 < s -> filterlim (fun x => sg + s * (x - m) ^ 2) Finf Finf.
Proof.
  intros Hs P [M HP]. exists (Rmax (m + 1) (m + Rabs (M - sg) / s)). intros x Hx. apply HP.
  pose proof (Rmax_l (m + 1) (m + Rabs (M - sg) / s)). pose proof (Rmax_r (m + 1) (m + Rabs (M - sg) / s)).
  assert (1 < x - m) by lra. assert (Rabs (M - sg) / s < x - m) by lra.
  assert (Rabs (M - sg) < s * (x - m)). { apply (Rmult_lt_compat_l s) in H2; auto. replace (s * (Rabs (M - sg) / s)) with (Rabs (M - sg)) in H2 by (field; lra). exact H2. }
  assert (s * (x - m) < s * (x - m) ^ 2) by (apply Rmult_lt_compat_l; [lra|nra]).
  pose proof (Rle_abs (M - sg)). lra.
Qed.
Lemma filterlim_quad_minf sg s m : 0 < s -> filterlim (fun x => sg + s * (x - m) ^ 2) Fminf Finf.
Proof.
  intros Hs. apply filterlim_ext with (fun x => sg + s * ((- x) - (- m)) ^ 2). intros x. ring.
  apply (filterlim_comp _ _ _ Ropp (fun x => sg + s * (x - - m) ^ 2) Fminf Finf Finf).
  apply filterlim_opp_minf. now apply filterlim_quad_inf.
Qed.
Lemma filterlim_Rpower_neg e : 0 < e -> filterlim (fun x => Rpower x (- e)) Finf (locally 0).
Proof.
  intros He P [eps HP]. pose proof (cond_pos eps) as Heps. exists (Rpower eps (- / e)). intros x Hx. apply HP.
  assert (Hx0 : 0 < x) by (pose proof (Rpower_pos eps (- / e)); lra).
  unfold ball; simpl; unfold AbsRing_ball, abs, minus, plus, opp; simpl. rewrite Ropp_0, Rplus_0_r.
  rewrite Rabs_right by (left; apply Rpower_pos).
  apply Rlt_le_trans with (Rpower (Rpower eps (- / e)) (- e)).
  - rewrite (Rpower_Ropp x e), (Rpower_Ropp _ e). apply Rinv_lt_contravar.
    + apply Rmult_lt_0_compat; apply Rpower_pos.
    + apply Rlt_Rpower_l; [exact He|]. split; [apply Rpower_pos|]. exact Hx.
  - rewrite Rpower_mult. replace (- / e * - e) with 1 by (field; lra). rewrite Rpower_1 by exact Heps. lra.
Qed.

Lemma t_moment1 sg s m be : 0 < sg -> 0 < s -> 1 < be ->
  is_RInt_gen (fun x => (x - m) * Rpower (sg + s * (x - m) ^ 2) (- be)) Fminf Finf 0.
Proof.
  intros Hg Hs Hb. set (c := / (2 * s * (1 - be))).
  assert (L : forall F, filterlim (fun x => sg + s * (x - m) ^ 2) F Finf ->
    filterlim (fun x => c * Rpower (sg + s * (x - m) ^ 2) (- (be - 1))) F (locally (c * 0))).
  { intros F HF. apply (filterlim_comp _ _ _ (fun x => Rpower (sg + s * (x - m) ^ 2) (- (be - 1))) (fun y => c * y) F (locally 0) (locally (c * 0))).
    - apply (filterlim_comp _ _ _ (fun x => sg + s * (x - m) ^ 2) (fun y => Rpower y (- (be - 1))) F Finf (locally 0)); [exact HF|].
      apply filterlim_Rpower_neg. lra.
    - apply (continuous_mult (fun _ => c) (fun y => y)). apply continuous_const. apply continuous_id. }
  replace 0 with (c * 0 - c * 0) by ring.
  apply (is_RInt_gen_FTC _ _ _ ends_line (fun x => c * Rpower (sg + s * (x - m) ^ 2) (- (be - 1)))).
  - intros x _. pose proof (t_base_pos sg s (x - m) Hg Hs) as Hp. unfold Rpower. auto_derive.
    + replace ((x + - m) * ((x + - m) * 1)) with ((x - m) ^ 2) by (simpl; ring). exact Hp.
    + replace (sg + s * ((x + - m) * ((x + - m) * 1))) with (sg + s * (x - m) ^ 2) by (simpl; ring).
      replace (- be * ln (sg + s * (x - m) ^ 2)) with (- (be - 1) * ln (sg + s * (x - m) ^ 2) + - ln (sg + s * (x - m) ^ 2)) by ring.
      rewrite exp_plus, exp_Ropp, exp_ln by exact Hp. unfold c. replace (x + - m) with (x - m) by ring. field. repeat split; lra.
  - intros x _. pose proof (t_base_pos sg s (x - m) Hg Hs) as Hp. apply (ex_derive_continuous (V := R_NormedModule)). unfold Rpower. auto_derive.
    replace ((x + - m) * ((x + - m) * 1)) with ((x - m) ^ 2) by (simpl; ring). exact Hp.
  - apply L. now apply filterlim_quad_minf.
  - apply L. now apply filterlim_quad_inf.
Qed.

Lemma t_moment2 sg s m be : 0 < sg -> 0 < s -> 3 / 2 < be ->
  is_RInt_gen (fun x => (x - m) ^ 2 * Rpower (sg + s * (x - m) ^ 2) (- be)) Fminf Finf
    (sqrt PI * Gamma_fun (be - 3 / 2) / (2 * Gamma_fun be) * Rpower sg (3 / 2 - be) / (s * sqrt s)).
Proof.
  intros Hg Hs Hb. assert (Hr : 0 < sqrt s) by now apply sqrt_lt_R0.
  pose proof (is_RInt_gen_t_quad sg s m be Hg Hs ltac:(lra)) as H0.
  pose proof (is_RInt_gen_t_quad sg s m (be - 1) Hg Hs ltac:(lra)) as H1.
  apply (is_RInt_gen_mult_l _ _ _ (- sg / s)) in H0. apply (is_RInt_gen_mult_l _ _ _ (/ s)) in H1.
  pose proof (is_RInt_gen_plus_R _ _ _ _ _ _ H1 H0) as H.
  pose proof (Gamma_fun_pos (be - 1) ltac:(lra)) as G1. pose proof (Gamma_fun_pos (be - 3 / 2) ltac:(lra)) as G2.
  match type of H with is_RInt_gen _ _ _ ?v => replace v with
    (sqrt PI * Gamma_fun (be - 3 / 2) / (2 * Gamma_fun be) * Rpower sg (3 / 2 - be) / (s * sqrt s)) in H end.
  - revert H. apply (is_RInt_gen_ext_on _ _ _ ends_line). intros x _. pose proof (t_base_pos sg s (x - m) Hg Hs) as Hp.
    replace (- (be - 1)) with (- be + 1) by ring. rewrite Rpower_plus, Rpower_1 by exact Hp. field. lra.
  - replace (be - 1 - / 2) with (be - 3 / 2) by lra. replace (be - / 2) with (be - 3 / 2 + 1) by lra.
    rewrite Gamma_fun_succ by lra. replace (/ 2 - (be - 1)) with (3 / 2 - be) by lra.
    replace (/ 2 - be) with (3 / 2 - be + - (1)) by lra. rewrite Rpower_plus, Rpower_Ropp, Rpower_1 by exact Hg.
    assert (E : Gamma_fun be = (be - 1) * Gamma_fun (be - 1)). { rewrite <- Gamma_fun_succ by lra. f_equal. ring. }
    rewrite E. field. repeat split; lra.
Qed.
