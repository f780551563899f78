(** One-dimensional integrals behind the multivariate t and the inverse Wishart
    densities. *)

From Coq Require Import Reals Lra.
From Coquelicot Require Import Coquelicot.
From Verif Require Import Spec.Special Analysis.Improper Analysis.RealAux Analysis.GammaBeta Analysis.GammaFacts Analysis.Gauss.
Local Open Scope R_scope.

Lemma is_RInt_gen_t_quad sg s m be : 0 < sg -> 0 < s -> /2 < be ->
  is_RInt_gen (fun x => Rpower (sg + s * (x - m) ^ 2) (- be)) Fminf Finf
    (sqrt PI * Gamma_fun (be - /2) / Gamma_fun be * Rpower sg (/2 - be) / sqrt s).
Proof.
  intros Hg Hs Hb. set (nu := 2 * be - 1). assert (Hn : 0 < nu) by (unfold nu; lra).
  set (k := sqrt (nu * s / sg)).
  assert (Hq : 0 < nu * s / sg) by (apply Rdiv_lt_0_compat; [now apply Rmult_lt_0_compat | lra]).
  assert (Hk : 0 < k) by now apply sqrt_lt_R0.
  pose proof (is_RInt_gen_t_kernel nu Hn) as H.
  apply (is_RInt_gen_affine _ k m) in H; auto.
  2:{ intros x. apply (continuous_comp (fun x => 1 + x ^ 2 / nu) (fun t => Rpower t (- ((nu + 1) / 2)))).
      - apply (ex_derive_continuous (V:=R_NormedModule)). auto_derive; auto.
      - apply continuous_Rpower. pose proof (pow2_ge_0 x).
        assert (0 <= x ^ 2 / nu) by (apply Rdiv_le_0_compat; lra). lra. }
  apply (is_RInt_gen_mult_l _ _ _ (Rpower sg (- be))) in H.
  assert (E : Rpower sg (- be) * (sqrt nu * Beta_fun (/2) (nu / 2) / k) =
    sqrt PI * Gamma_fun (be - /2) / Gamma_fun be * Rpower sg (/2 - be) / sqrt s).
  { assert (E1 : Beta_fun (/2) (nu / 2) = sqrt PI * Gamma_fun (be - /2) / Gamma_fun be).
    { pose proof (Beta_Gamma (/2) (be - /2) ltac:(lra) ltac:(lra)) as B.
      replace (/2 + (be - /2)) with be in B by lra. replace (nu / 2) with (be - /2) by (unfold nu; lra).
      pose proof (Gamma_fun_pos be ltac:(lra)). rewrite Gamma_half in B. rewrite B. field. lra. }
    rewrite E1. unfold k. rewrite sqrt_div by (try apply Rmult_le_pos; lra). rewrite sqrt_mult by lra.
    replace (/2 - be) with (- be + /2) by lra. rewrite Rpower_plus, Rpower_sqrt by lra.
    pose proof (Gamma_fun_pos be ltac:(lra)).
    assert (0 < sqrt nu) by now apply sqrt_lt_R0. assert (0 < sqrt s) by now apply sqrt_lt_R0.
    assert (0 < sqrt sg) by now apply sqrt_lt_R0.
    field. repeat split; lra. }
  rewrite <- E. revert H. apply (is_RInt_gen_ext_on _ _ _ ends_line). intros x _.
  replace ((nu + 1) / 2) with be by (unfold nu; lra).
  rewrite <- Rpower_mult_base; [|lra|].
  - f_equal. rewrite Rpow_mult_distr. unfold k. rewrite pow2_sqrt by lra. field. lra.
  - pose proof (pow2_ge_0 (k * (x - m))).
    assert (0 <= (k * (x - m)) ^ 2 / nu) by (apply Rdiv_le_0_compat; lra). lra.
Qed.

Lemma is_RInt_gen_above lo (f : R -> R) l : (forall x, 0 < x -> continuous f x) ->
  is_RInt_gen f Fpos0 Finf l -> is_RInt_gen (fun x => f (x - lo)) (at_right lo) Finf l.
Proof.
  intros Hc H.
  apply (is_RInt_gen_subst _ _ _ (ends_above lo) Fpos0 Finf (fun x => 0 < x) f (fun x => x - lo) (fun _ => 1)) in H.
  - revert H. apply (is_RInt_gen_ext_on _ _ _ (ends_above lo)). intros x _. ring.
  - apply at_right_proper_filter.
  - apply Rbar_locally_filter.
  - intros x Hx. lra.
  - intros x _. auto_derive; auto. 
  - intros x _. apply continuous_const.
  - intros x Hx. now apply Hc.
  - intros P HP. destruct HP as [e HP]. exists e. intros y Hy Hl. apply HP.
    + change (Rabs (y - lo) < e) in Hy. change (Rabs (y - lo - 0) < e). now replace (y - lo - 0) with (y - lo) by ring.
    + lra.
  - intros P [M HP]. exists (M + lo). intros y Hy. apply HP. lra.
Qed.

Lemma is_RInt_gen_InvGamma_above lo a b : 0 < a -> 0 < b ->
  is_RInt_gen (fun x => Rpower (x - lo) (- a - 1) * exp (- (b / (x - lo)))) (at_right lo) Finf
    (Gamma_fun a / Rpower b a).
Proof.
  intros Ha Hb. apply (is_RInt_gen_above lo (fun v => Rpower v (- a - 1) * exp (- (b / v)))).
  - intros x Hx. apply (continuous_mult (fun v => Rpower v (- a - 1)) (fun v => exp (- (b / v)))).
    + now apply continuous_Rpower.
    + apply (ex_derive_continuous (V:=R_NormedModule)). auto_derive; lra.
  - now apply is_RInt_gen_InvGamma.
Qed.
