(** Integrals over the whole line: even functions, affine changes of variable,
    the normal and Student-t normalisers. *)

From Coq Require Import Reals Lra Psatz.
From Coquelicot Require Import Coquelicot.
From Verif Require Import Spec.Special Analysis.Improper Analysis.RealAux Analysis.GammaBeta Analysis.Tonelli Analysis.GammaFacts.
Open Scope R_scope.

Lemma is_RInt_gen_even (f : R -> R) (l : R) :
  (forall x, continuous f x) -> (forall x, 0 <= f x) -> (forall x, f (- x) = f x) ->
  is_RInt_gen f Fpos0 Finf l -> is_RInt_gen f Fminf Finf (2 * l).
Proof.
  intros Hc Hp He H.
  assert (ex : forall a b, ex_RInt f a b) by (intros; apply (ex_RInt_continuous (V:=R_CompleteNormedModule)); auto).
  destruct (is_RInt_gen_sup_int _ _ _ ends_pos f l (fun x _ => Hc x) (fun x _ => Hp x) H) as [Hub Hlub].
  assert (Hopp : forall c, RInt f (- c) 0 = RInt f 0 c).
  { intros c.
    assert (H1 : is_RInt (fun y => opp (f (- y))) 0 c (RInt f (- 0) (- c))).
    { apply (is_RInt_comp_opp (V:=R_NormedModule)). now apply (RInt_correct (V:=R_CompleteNormedModule)). }
    rewrite Ropp_0 in H1. apply (is_RInt_unique (V:=R_CompleteNormedModule)) in H1.
    assert (Hs : RInt f 0 (- c) = - RInt f 0 c).
    { rewrite <- H1. transitivity (RInt (fun y => opp (f y)) 0 c).
      - apply (RInt_ext (V:=R_CompleteNormedModule)). intros x _. now rewrite He.
      - now rewrite (RInt_opp (V:=R_CompleteNormedModule)). }
    rewrite <- (opp_RInt_swap (V:=R_CompleteNormedModule)) by auto. rewrite Hs. unfold opp; simpl. ring. }
  assert (Hsym : forall c, RInt f (- c) c = 2 * RInt f 0 c).
  { intros c. rewrite <- (RInt_Chasles (V:=R_CompleteNormedModule) f (-c) 0 c) by auto.
    rewrite Hopp. unfold plus; simpl. ring. }
  assert (H0 : forall c, 0 < c -> RInt f 0 c <= l).
  { intros c Hcp. apply Rnot_lt_le. intros Hlt.
    assert (Hcont : continuous (fun a => RInt f a c) 0).
    { apply continuous_ext with (fun a => - RInt f c a).
      - intros x. exact (opp_RInt_swap (V:=R_CompleteNormedModule) f c x (ex c x)).
      - apply (continuous_opp (V:=R_NormedModule)). apply (ex_derive_continuous (V:=R_NormedModule)).
        exists (f 0). apply (is_derive_RInt (V:=R_CompleteNormedModule)) with c; auto.
        apply filter_forall. intros x. now apply (RInt_correct (V:=R_CompleteNormedModule)). }
    specialize (Hcont (fun z => l < z)). 
    assert (Hl : locally (RInt f 0 c) (fun z => l < z)) by (apply open_gt; auto).
    destruct (Hcont Hl) as [d Hd].
    set (a := Rmin (d / 2) c). assert (0 < a) by (apply Rmin_pos; auto; apply is_pos_div_2).
    assert (a <= d / 2) by apply Rmin_l. assert (a <= c) by apply Rmin_r.
    specialize (Hub a c ltac:(auto) ltac:(auto) ltac:(auto)).
    assert (l < RInt f a c); [|lra].
    apply Hd. unfold ball; simpl; unfold AbsRing_ball, abs, minus, plus, opp; simpl.
    pose proof (cond_pos d). rewrite Ropp_0, Rplus_0_r, Rabs_right; lra. }
  apply (sup_int_is_RInt_gen _ _ _ ends_line); auto. intros x _; apply Hc. split.
  - intros a b _ _ Hab. set (c := Rabs a + Rabs b + 1).
    pose proof (Rabs_pos a). pose proof (Rabs_pos b).
    apply Rle_trans with (RInt f (- c) c).
    + apply (RInt_mono_interval _ _ _ ends_line); auto. intros x _; apply Hc.
      unfold c. unfold Rabs; destruct (Rcase_abs a), (Rcase_abs b); lra.
      unfold c. unfold Rabs; destruct (Rcase_abs a), (Rcase_abs b); lra.
    + rewrite Hsym. assert (RInt f 0 c <= l) by (apply H0; unfold c; lra). lra.
  - intros eps Heps. destruct (Hlub (eps / 2) ltac:(lra)) as (a & b & Ha & Hb & Hab & Hl).
    exists (-b), b. repeat split; auto; try lra. rewrite Hsym.
    assert (RInt f a b <= RInt f 0 b); [|lra].
    apply (RInt_mono_interval _ _ _ ends_line); auto; try lra. intros x _; apply Hc.
Qed.

Lemma filterlim_affine_inf k m : 0 < k -> filterlim (fun x => k * (x - m)) Finf Finf.
Proof.
  intros Hk P [M HP]. exists (M / k + m). intros x Hx. apply HP.
  assert (M / k < x - m) by lra. apply Rmult_lt_compat_l with (r := k) in H; auto.
  replace (k * (M / k)) with M in H by (field; lra). exact H.
Qed.

Lemma filterlim_affine_minf k m : 0 < k -> filterlim (fun x => k * (x - m)) Fminf Fminf.
Proof.
  intros Hk P [M HP]. exists (M / k + m). intros x Hx. apply HP.
  assert (x - m < M / k) by lra. apply Rmult_lt_compat_l with (r := k) in H; auto.
  replace (k * (M / k)) with M in H by (field; lra). exact H.
Qed.

Lemma is_RInt_gen_affine (f : R -> R) k m l : 0 < k -> (forall x, continuous f x) ->
  is_RInt_gen f Fminf Finf l -> is_RInt_gen (fun x => f (k * (x - m))) Fminf Finf (l / k).
Proof.
  intros Hk Hc H.
  apply (is_RInt_gen_subst _ _ _ ends_line Fminf Finf (fun _ => True) f (fun x => k * (x - m)) (fun _ => k)) in H.
  - apply (is_RInt_gen_mult_l _ _ _ (/ k)) in H.
    replace (l / k) with (/ k * l) by (unfold Rdiv; ring).
    revert H. apply (is_RInt_gen_ext_on _ _ _ ends_line). intros x _. field. lra.
  - apply FFinf.
  - apply FFinf.
  - auto.
  - intros x _. auto_derive; auto; simpl; try lra.
  - intros x _. apply continuous_const.
  - intros x _. apply Hc.
  - now apply filterlim_affine_minf.
  - now apply filterlim_affine_inf.
Qed.

Lemma is_RInt_gen_gauss : is_RInt_gen (fun x => exp (- x ^ 2)) Fminf Finf (sqrt PI).
Proof.
  replace (sqrt PI) with (2 * (sqrt PI / 2)) by field.
  apply is_RInt_gen_even.
  - intros x. apply (ex_derive_continuous (V:=R_NormedModule)). auto_derive; auto.
  - intros x. left. apply exp_pos.
  - intros x. f_equal. ring.
  - apply is_RInt_gen_gauss_half.
Qed.

(** Normalising constant of a Gaussian with precision [p] centred at [m]. *)
Lemma is_RInt_gen_gauss_prec p m : 0 < p ->
  is_RInt_gen (fun x => exp (- (p * (x - m) ^ 2) / 2)) Fminf Finf (sqrt (2 * PI / p)).
Proof.
  intros Hp.
  assert (Hs : 0 < sqrt (p / 2)) by (apply sqrt_lt_R0; lra).
  replace (sqrt (2 * PI / p)) with (sqrt PI / sqrt (p / 2)).
  2:{ rewrite <- sqrt_div_alt by lra. f_equal. field. lra. }
  pose proof is_RInt_gen_gauss as H.
  apply (is_RInt_gen_affine _ (sqrt (p / 2)) m) in H; auto.
  - revert H. apply (is_RInt_gen_ext_on _ _ _ ends_line). intros x _. f_equal.
    rewrite Rpow_mult_distr. rewrite pow2_sqrt by lra. field.
  - intros x. apply (ex_derive_continuous (V:=R_NormedModule)). auto_derive; auto.
Qed.

(** Product of two Gaussian kernels: complete the square. *)
Lemma complete_square p q m n x : 0 < p + q ->
  p * (x - m) ^ 2 + q * (x - n) ^ 2 =
  (p + q) * (x - (p * m + q * n) / (p + q)) ^ 2 + p * q / (p + q) * (m - n) ^ 2.
Proof. intros. field. lra. Qed.

(** Student-t kernel *)
Lemma is_RInt_gen_t_kernel nu : 0 < nu ->
  is_RInt_gen (fun x => Rpower (1 + x ^ 2 / nu) (- ((nu + 1) / 2))) Fminf Finf
    (sqrt nu * Beta_fun (/2) (nu / 2)).
Proof.
  intros Hn.
  assert (Hsn : 0 < sqrt nu) by now apply sqrt_lt_R0.
  replace (sqrt nu * Beta_fun (/2) (nu / 2)) with (2 * (/2 * sqrt nu * Beta_fun (/2) (nu / 2))) by field.
  assert (Hb : forall x, 0 < 1 + x ^ 2 / nu).
  { intros x. assert (0 <= x ^ 2 / nu). apply Rmult_le_pos. apply pow2_ge_0. left; now apply Rinv_0_lt_compat. lra. }
  apply is_RInt_gen_even.
  - intros x. apply (continuous_comp (fun x => 1 + x ^ 2 / nu) (fun t => Rpower t (- ((nu + 1) / 2)))).
    apply (ex_derive_continuous (V:=R_NormedModule)). auto_derive; auto; lra.
    now apply continuous_Rpower.
  - intros x. left. apply Rpower_pos.
  - intros x. f_equal. f_equal. f_equal. ring.
  - pose proof (is_RInt_gen_BetaPrime (/2) (nu/2) ltac:(lra) ltac:(lra)) as H.
    apply (is_RInt_gen_subst _ _ _ ends_pos Fpos0 Finf (fun x => 0 < x) _ (fun x => x ^ 2 / nu) (fun x => 2 * x / nu)) in H.
    + apply (is_RInt_gen_mult_l _ _ _ (/2 * sqrt nu)) in H. 
      revert H. apply (is_RInt_gen_ext_on _ _ _ ends_pos). intros x Hx.
      assert (E : Rpower (x ^ 2 / nu) (/2 - 1) = sqrt nu / x).
      { replace (/2 - 1) with (- / 2) by lra. rewrite Rpower_Ropp, Rpower_sqrt by (apply Rdiv_lt_0_compat; nra).
        rewrite sqrt_div_alt by lra. replace (x ^ 2) with (x * x) by ring. rewrite sqrt_square by lra. field. lra. }
      rewrite E. rewrite Rpower_Ropp. replace (/ 2 + nu / 2) with ((nu + 1) / 2) by field.
      replace nu with (sqrt nu * sqrt nu) at 2 by (apply sqrt_def; lra).
      field. repeat split; try lra. apply Rgt_not_eq, Rpower_pos.
    + apply FF0.
    + apply FFinf.
    + intros x Hx. apply Rdiv_lt_0_compat; nra.
    + intros x Hx. auto_derive; auto. field. lra.
    + intros x Hx. apply (ex_derive_continuous (V:=R_NormedModule)). auto_derive; auto; lra.
    + intros x Hx. apply (continuous_mult (fun t => Rpower t (/2-1)) (fun t => / Rpower (1 + t) (/2 + nu/2))).
      now apply continuous_Rpower.
      apply continuous_ext_loc with (fun t => Rpower (1 + t) (- (/2 + nu/2))).
      { apply filter_forall. intros z. apply Rpower_Ropp. }
      apply (continuous_comp (fun t => 1 + t) (fun t => Rpower t (- (/2+nu/2)))).
      apply (ex_derive_continuous (V:=R_NormedModule)). auto_derive; auto. apply continuous_Rpower. lra.
    + apply (filterlim_ext (fun x => / nu * x ^ 2)). intros; field; lra.
      apply (filterlim_comp _ _ _ (fun x => x ^ 2) (fun y => / nu * y)) with Fpos0. apply filterlim_sq_0.
      apply filterlim_mult_pos_0. now apply Rinv_0_lt_compat.
    + apply (filterlim_ext (fun x => / nu * x ^ 2)). intros; field; lra.
      apply (filterlim_comp _ _ _ (fun x => x ^ 2) (fun y => / nu * y)) with Finf. apply filterlim_sq_inf.
      apply filterlim_mult_pos_inf. now apply Rinv_0_lt_compat.
Qed.
