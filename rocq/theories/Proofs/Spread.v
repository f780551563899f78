(** Averages of posterior variances. *)

From Coq Require Import Reals Lra Lia ZArith.
From Coquelicot Require Import Coquelicot.
From Verif Require Import Model.Num Model.Py Model.NdArray Model.Dists Model.ScipyDist Model.Models.
From Verif Require Import Spec.Special Spec.Densities Spec.Bayes Spec.Joint Spec.Moments Spec.Normalised Spec.Prequential Spec.Calibration.
From Verif Require Import Analysis.Improper Analysis.GammaBeta Analysis.GammaFacts Proofs.Conj Proofs.Predictive Proofs.Joint Proofs.Sharp
  Proofs.Normalised Proofs.Construct Proofs.Pdfs Proofs.Moments Proofs.Prequential Proofs.Calibration.
From Coq Require Import List.
Import ListNotations.
Open Scope R_scope.

Lemma frac a b : 0 < a -> a < b -> 0 < a / b < 1.
Proof.
  intros Ha Hb. split; [apply Rdiv_lt_0_compat; lra|]. apply (Rmult_lt_reg_r b); [lra|]. unfold Rdiv. rewrite Rmult_assoc, Rinv_l; lra.
Qed.

Section Variance.
Context {Fa Fb : (R -> Prop) -> Prop} {FA : ProperFilter' Fa} {FB : ProperFilter' Fb}.

Lemma variance_intro f m m2 : over1 Fa Fb f 1 -> is_mean Fa Fb f m -> over1 Fa Fb (fun t => t ^ 2 * f t) m2 ->
  is_variance Fa Fb f (m2 - m ^ 2).
Proof.
  intros H0 H1 H2. exists m. split; [exact H1|].
  pose proof (is_RInt_gen_mult_l Fa Fb _ (- 2 * m) _ H1) as Q1. pose proof (is_RInt_gen_mult_l Fa Fb _ (m ^ 2) _ H0) as Q0.
  pose proof (is_RInt_gen_plus (V := R_NormedModule) _ _ _ _ H2 (is_RInt_gen_plus (V := R_NormedModule) _ _ _ _ Q1 Q0)) as Q.
  replace (m2 - m ^ 2) with (plus m2 (plus (- 2 * m * m) (m ^ 2 * 1))) by (unfold plus; simpl; ring).
  revert Q. apply (over1_ext _ _). intros t. unfold plus; simpl. ring.
Qed.

Context {D O O' : Type} {dens : D -> R -> R} {lik : R -> O -> R}
  {upd : D -> O -> D} {predict : D -> O -> res R} {ok : D -> Prop} {obs : O -> Prop}.
Context (H : prequential (over1 Fa Fb) dens lik (fun d o => Ok (upd d o)) predict anywhere ok obs).
Context (total : forall d, ok d -> over1 Fa Fb (dens d) 1).

(** The mean of [q] under the posterior, times the predicted probability *)
Lemma shift_step (q : R -> R) (shift : D -> D) (mq : D -> R) d o : obs o -> ok d -> ok (shift d) -> ok (shift (upd d o)) ->
  (forall t, q t * dens d t = mq d * dens (shift d) t) ->
  (forall t, q t * dens (upd d o) t = mq (upd d o) * dens (shift (upd d o)) t) ->
  exists c c', predict d o = Ok c /\ predict (shift d) o = Ok c' /\ 0 < c /\ c * mq (upd d o) = mq d * c'.
Proof.
  intros Ho Ok1 Ok2 Ok3 E1 E2.
  destruct (prequential_single H d o Ok1 Ho) as (e & c & Eu & Ep & Hc & _ & Hp). injection Eu as Eu. subst e.
  destruct (prequential_single H (shift d) o Ok2 Ho) as (e' & c' & _ & Ep' & _ & Hi & _).
  exists c, c'. split; [exact Ep|]. split; [exact Ep'|]. split; [exact Hc|].
  assert (A : over1 Fa Fb (fun t => q t * dens (upd d o) t) (mq (upd d o))).
  { apply (over1_ext Fa Fb (fun t => mq (upd d o) * dens (shift (upd d o)) t)); [intros t; now rewrite E2|].
    pose proof (is_RInt_gen_mult_l Fa Fb _ (mq (upd d o)) 1 (total _ Ok3)) as Q. rewrite Rmult_1_r in Q. exact Q. }
  assert (B : over1 Fa Fb (fun t => q t * dens (upd d o) t) (mq d / c * c')).
  { apply (over1_ext Fa Fb (fun t => mq d / c * (likelihood lik [o] t * dens (shift d) t))).
    - intros t. rewrite Hp by exact Logic.I. unfold likelihood. simpl.
      replace (q t * (dens d t * lik t o / c)) with (q t * dens d t * lik t o / c) by (field; lra).
      rewrite E1. field. lra.
    - exact (is_RInt_gen_mult_l Fa Fb _ (mq d / c) c' Hi). }
  rewrite (over1_uniq Fa Fb _ _ _ A B). field. lra.
Qed.

Lemma variance_averages_intro (Sum : (O' -> R) -> R -> Prop) (g : O' -> O) (ok' : D -> Prop) (obs' : O' -> Prop)
  (q : R -> R) (shift : D -> D) (mq var kappa factor : D -> R) :
  (forall f c l, Sum f l -> Sum (fun o => c * f o) (c * l)) ->
  (forall o, obs' o -> obs (g o)) ->
  (forall d, ok' d -> ok d /\ ok (shift d) /\ forall t, q t * dens d t = mq d * dens (shift d) t) ->
  (forall d, ok' d -> is_variance Fa Fb (dens d) (var d) /\ 0 < var d) ->
  (forall d o, ok' d -> obs' o -> ok' (upd d (g o)) /\ var (upd d (g o)) = kappa d * mq (upd d (g o))) ->
  (forall d, ok' d -> 0 < factor d < 1 /\ kappa d * mq d = factor d * var d) ->
  (forall d, ok d -> exists w, (forall o, obs' o -> predict d (g o) = Ok (w o)) /\ Sum w 1) ->
  variance_averages Sum Fa Fb dens (fun d o => Ok (upd d (g o))) (fun d o => predict d (g o)) factor ok' obs'.
Proof.
  intros Sc Ho Sh V U F W d Hd. destruct (Sh d Hd) as (Ok1 & Ok2 & E). destruct (W (shift d) Ok2) as (w & Hw & Sw).
  split; [exact (proj1 (F d Hd))|]. exists (var d), (fun o => factor d * var d * w o). destruct (V d Hd) as (Vd & Hv). split; [exact Vd|]. split; [exact Hv|]. split.
  - intros o Hob. destruct (U d o Hd Hob) as (Hd' & Ev). destruct (Sh _ Hd') as (_ & Ok3 & E').
    destruct (shift_step q shift mq d (g o) (Ho o Hob) Ok1 Ok2 Ok3 E E') as (c & c' & Ec & Ec' & Hc & K).
    rewrite (Hw o Hob) in Ec'. injection Ec' as Ec'.
    exists c, (upd d (g o)), (var (upd d (g o))). split; [exact Ec|]. split; [reflexivity|]. split; [now apply V|].
    rewrite Ev, <- (proj2 (F d Hd)), Ec'. replace (c * (kappa d * mq (upd d (g o)))) with (kappa d * (c * mq (upd d (g o)))) by ring.
    rewrite K. ring.
  - pose proof (Sc _ (factor d * var d) _ Sw) as Q. rewrite Rmult_1_r in Q. exact Q.
Qed.
End Variance.

(** ** closed forms *)
Lemma beta_shift2 d t : 0 < Beta_alpha d -> 0 < Beta_beta d ->
  t * (1 - t) * pdf (Beta_dist d) t =
  Beta_alpha d * Beta_beta d / ((Beta_alpha d + Beta_beta d) * (Beta_alpha d + Beta_beta d + 1)) *
  pdf (Beta_dist (mkBeta (Beta_alpha d + 1) (Beta_beta d + 1))) t.
Proof.
  destruct d as [a b]. cbn [Beta_alpha Beta_beta]. intros Ha Hb. unfold Beta_dist. cbn [Beta_alpha Beta_beta].
  destruct (Rlt_dec 0 t) as [H0|H0]; [destruct (Rlt_dec t 1) as [H1|H1]|].
  - rewrite !beta_pdf by lra. rewrite Beta_fun_succ_l, Beta_fun_succ_r by lra. pose proof (Beta_fun_pos a b Ha Hb).
    replace (a + 1 - 1) with ((a - 1) + 1) by ring. replace (b + 1 - 1) with ((b - 1) + 1) by ring.
    rewrite !Rpower_plus, !Rpower_1 by lra. field. lra.
  - rewrite !beta_pdf_out by lra. ring.
  - rewrite !beta_pdf_out by lra. ring.
Qed.

Definition beta_var (d : Beta R) : R :=
  Beta_alpha d * Beta_beta d / ((Beta_alpha d + Beta_beta d) ^ 2 * (Beta_alpha d + Beta_beta d + 1)).
Lemma beta_variance d : 0 < Beta_alpha d -> 0 < Beta_beta d -> is_variance Fpos0 Fone (pdf (Beta_dist d)) (beta_var d) /\ 0 < beta_var d.
Proof.
  intros Ha Hb. split.
  2:{ unfold beta_var. apply Rdiv_lt_0_compat; [now apply Rmult_lt_0_compat|]. apply Rmult_lt_0_compat; [apply pow_lt|]; lra. }
  pose proof (beta_mean _ _ Ha Hb) as M. set (a := Beta_alpha d) in *. set (b := Beta_beta d) in *.
  set (m := a * b / ((a + b) * (a + b + 1))).
  replace (beta_var d) with ((a / (a + b) - m) - (a / (a + b)) ^ 2)
    by (unfold beta_var, m; fold a; fold b; field; lra).
  apply variance_intro.
  - exact (proj2 (proj2 (Beta_density d Ha Hb))).
  - exact M.
  - pose proof (is_RInt_gen_mult_l Fpos0 Fone _ m _ (proj2 (proj2 (Beta_density (mkBeta (a + 1) (b + 1)) ltac:(simpl; lra) ltac:(simpl; lra))))) as Q.
    pose proof (is_RInt_gen_minus (V := R_NormedModule) _ _ _ _ M Q) as Q'. rewrite Rmult_1_r in Q'.
    revert Q'. apply (over1_ext _ _). intros t.
    pose proof (beta_shift2 d t Ha Hb) as E. fold a in E. fold b in E. fold m in E. rewrite <- E. change (S_beta a b) with (Beta_dist d).
    set (z := pdf (Beta_dist d) t). unfold minus, plus, opp. simpl. ring.
Qed.

Lemma gamma_shift2 d t : 0 < Gamma_alpha d -> 0 < Gamma_beta d ->
  t ^ 2 * pdf (Gamma_dist d) t = Gamma_alpha d * (Gamma_alpha d + 1) / Gamma_beta d ^ 2 *
  pdf (Gamma_dist (mkGamma (Gamma_alpha d + 2) (Gamma_beta d))) t.
Proof.
  intros Ha Hb. replace (t ^ 2 * pdf (Gamma_dist d) t) with (t * (t * pdf (Gamma_dist d) t)) by ring.
  rewrite gamma_shift by assumption.
  replace (t * (Gamma_alpha d / Gamma_beta d * pdf (Gamma_dist (mkGamma (Gamma_alpha d + 1) (Gamma_beta d))) t))
    with (Gamma_alpha d / Gamma_beta d * (t * pdf (Gamma_dist (mkGamma (Gamma_alpha d + 1) (Gamma_beta d))) t)) by ring.
  rewrite gamma_shift by (cbn [Gamma_alpha Gamma_beta]; lra). cbn [Gamma_alpha Gamma_beta].
  replace (Gamma_alpha d + 1 + 1) with (Gamma_alpha d + 2) by ring. field. lra.
Qed.
Definition gamma_var (d : Gamma R) : R := Gamma_alpha d / Gamma_beta d ^ 2.
Lemma gamma_variance d : 0 < Gamma_alpha d -> 0 < Gamma_beta d -> is_variance Fpos0 Finf (pdf (Gamma_dist d)) (gamma_var d) /\ 0 < gamma_var d.
Proof.
  intros Ha Hb. split.
  2:{ unfold gamma_var. apply Rdiv_lt_0_compat; [assumption|]. now apply pow_lt. }
  set (m := Gamma_alpha d * (Gamma_alpha d + 1) / Gamma_beta d ^ 2).
  replace (gamma_var d) with (m - (Gamma_alpha d / Gamma_beta d) ^ 2) by (unfold gamma_var, m; field; lra).
  apply variance_intro.
  - exact (proj2 (proj2 (Gamma_density d Ha Hb))).
  - exact (gamma_mean _ _ Ha Hb).
  - pose proof (is_RInt_gen_mult_l Fpos0 Finf _ m _ (proj2 (proj2 (Gamma_density (mkGamma (Gamma_alpha d + 2) (Gamma_beta d)) ltac:(simpl; lra) Hb)))) as Q.
    rewrite Rmult_1_r in Q. revert Q. apply (over1_ext _ _). intros t. now rewrite gamma_shift2.
Qed.

Lemma invgamma_shift2 a b t : 2 < a -> 0 < b ->
  t ^ 2 * pdf (S_invgamma_scale a b) t = b ^ 2 / ((a - 1) * (a - 2)) * pdf (S_invgamma_scale (a - 2) b) t.
Proof.
  intros Ha Hb. replace (t ^ 2 * pdf (S_invgamma_scale a b) t) with (t * (t * pdf (S_invgamma_scale a b) t)) by ring.
  rewrite invgamma_shift by lra.
  replace (t * (b / (a - 1) * pdf (S_invgamma_scale (a - 1) b) t)) with (b / (a - 1) * (t * pdf (S_invgamma_scale (a - 1) b) t)) by ring.
  rewrite invgamma_shift by lra. replace (a - 1 - 1) with (a - 2) by ring. field. lra.
Qed.
Lemma invgamma_variance a b : 2 < a -> 0 < b ->
  is_variance Fpos0 Finf (pdf (S_invgamma_scale a b)) (b ^ 2 / ((a - 1) ^ 2 * (a - 2))) /\ 0 < b ^ 2 / ((a - 1) ^ 2 * (a - 2)).
Proof.
  intros Ha Hb. split.
  2:{ apply Rdiv_lt_0_compat; [now apply pow_lt|]. apply Rmult_lt_0_compat; [apply pow_lt|]; lra. }
  replace (b ^ 2 / ((a - 1) ^ 2 * (a - 2))) with (b ^ 2 / ((a - 1) * (a - 2)) - (b / (a - 1)) ^ 2) by (field; lra).
  apply variance_intro.
  - exact (proj2 (proj2 (invgamma_density a b ltac:(lra) Hb))).
  - unfold is_mean.
    pose proof (is_RInt_gen_mult_l Fpos0 Finf _ (b / (a - 1)) _ (proj2 (proj2 (invgamma_density (a - 1) b ltac:(lra) Hb)))) as Q.
    rewrite Rmult_1_r in Q. revert Q. apply (over1_ext _ _). intros t. now rewrite invgamma_shift by lra.
  - pose proof (is_RInt_gen_mult_l Fpos0 Finf _ (b ^ 2 / ((a - 1) * (a - 2))) _ (proj2 (proj2 (invgamma_density (a - 2) b ltac:(lra) Hb)))) as Q.
    rewrite Rmult_1_r in Q. revert Q. apply (over1_ext _ _). intros t. now rewrite invgamma_shift2.
Qed.

(** ** the models *)
Lemma binomial_variance_averages n : (0 < n)%nat ->
  variance_averages (up_to n) Fpos0 Fone (fun d => pdf (Beta_dist d))
    (fun d k => Ok (binomial_beta (INR n) (INR k) d))
    (fun d k => Ok (pmf (BetaBinomial_dist (binomial_beta_predictive (INR n) d)) (Z.of_nat k)))
    (fun d => (Beta_alpha d + Beta_beta d) / (Beta_alpha d + Beta_beta d + INR n))
    (fun d => 0 < Beta_alpha d /\ 0 < Beta_beta d) (fun k => (k <= n)%nat).
Proof.
  intros Hn0. assert (Hn := lt_0_INR n Hn0).
  apply (variance_averages_intro binomial_prequential (fun d '(conj Ha Hb) => proj2 (proj2 (Beta_density d Ha Hb))) (up_to n) (fun k => (n, k))) with
    (q := fun t => t * (1 - t)) (shift := fun d => mkBeta (Beta_alpha d + 1) (Beta_beta d + 1)) (var := beta_var)
    (mq := fun d => Beta_alpha d * Beta_beta d / ((Beta_alpha d + Beta_beta d) * (Beta_alpha d + Beta_beta d + 1)))
    (kappa := fun d => / (Beta_alpha d + Beta_beta d + INR n)).
  - intros. now apply up_to_scal.
  - intros k Hk. exact Hk.
  - intros d (Ha & Hb). split; [auto|]. split; [simpl; lra|]. intros t. now apply beta_shift2.
  - intros d (Ha & Hb). now apply beta_variance.
  - intros [a b] k (Ha & Hb) Hk. cbn [fst snd]. unfold binomial_beta, get_binomial_beta_posterior_params, beta_var. cbn [Beta_alpha Beta_beta nadd nsub NumR] in *.
    assert (Hk0 := pos_INR k). assert (INR k <= INR n) by now apply le_INR. split; [lra|]. field. lra.
  - intros [a b] (Ha & Hb). unfold beta_var. cbn [Beta_alpha Beta_beta] in *. split; [apply frac; lra|]. field. lra.
  - intros d (Ha & Hb). eexists. split; [reflexivity|]. cbn [fst snd].
    apply (mass_up_to n (pmf (BetaBinomial_dist (binomial_beta_predictive (INR n) d)))).
    + now apply BetaBinomial_mass.
    + intros k Hk. now apply betabinom_out.
Qed.

Lemma poisson_variance_averages :
  variance_averages over_nat Fpos0 Finf (fun d => pdf (Gamma_dist d))
    (fun d x => Ok (poisson_gamma (INR x) 1 d))
    (fun d x => Ok (pmf (NegativeBinomial_dist (poisson_gamma_predictive d 1)) (Z.of_nat x)))
    (fun d => Gamma_beta d / (Gamma_beta d + 1))
    (fun d => 0 < Gamma_alpha d /\ 0 < Gamma_beta d) (fun _ => True).
Proof.
  apply (variance_averages_intro poisson_prequential (fun d '(conj Ha Hb) => proj2 (proj2 (Gamma_density d Ha Hb))) over_nat (fun k => k)) with
    (q := fun t => t) (shift := fun d => mkGamma (Gamma_alpha d + 1) (Gamma_beta d)) (var := gamma_var)
    (mq := fun d => Gamma_alpha d / Gamma_beta d) (kappa := fun d => / (Gamma_beta d + 1)).
  - exact over_nat_scal.
  - auto.
  - intros d (Ha & Hb). split; [auto|]. split; [simpl; lra|]. intros t. now apply gamma_shift.
  - intros d (Ha & Hb). now apply gamma_variance.
  - intros [a b] k (Ha & Hb) _. unfold poisson_gamma, get_poisson_gamma_posterior_params, gamma_var. cbn [Gamma_alpha Gamma_beta nadd nsub NumR] in *.
    assert (Hk0 := pos_INR k). split; [lra|]. field. lra.
  - intros [a b] (Ha & Hb). unfold gamma_var. cbn [Gamma_alpha Gamma_beta] in *. split; [apply frac; lra|]. field. lra.
  - intros d (Ha & Hb). eexists. split; [reflexivity|].
    apply (mass_over_nat (pmf (NegativeBinomial_dist (poisson_gamma_predictive d 1)))).
    unfold poisson_gamma_predictive. apply NegativeBinomial_mass; cbn [NegativeBinomial_n NegativeBinomial_p nmul nadd ndiv nlit NumR].
    + lra.
    + split; [apply Rdiv_lt_0_compat; lra|]. apply (Rmult_le_reg_r (1 + Gamma_beta d)); [lra|]. unfold Rdiv. rewrite Rmult_assoc, Rinv_l by lra. lra.
Qed.

Lemma gamma_known_shape_variance_averages alpha : 0 < alpha ->
  variance_averages (over_reals Fpos0 Finf) Fpos0 Finf (fun d => pdf (Gamma_dist d))
    (fun d x => Ok (gamma_known_shape x 1 alpha d))
    (fun d x => Ok (pdf (CompoundGamma_dist (gamma_known_shape_predictive d alpha)) x))
    (fun d => (Gamma_alpha d + 1) / (Gamma_alpha d + 1 + alpha))
    (fun d => 0 < Gamma_alpha d /\ 0 < Gamma_beta d) (fun x => 0 < x).
Proof.
  intros Hal.
  apply (variance_averages_intro (gamma_known_shape_prequential alpha Hal) (fun d '(conj Ha Hb) => proj2 (proj2 (Gamma_density d Ha Hb)))
      (over_reals Fpos0 Finf) (fun x => x)) with
    (q := fun t => t ^ 2) (shift := fun d => mkGamma (Gamma_alpha d + 2) (Gamma_beta d)) (var := gamma_var)
    (mq := fun d => Gamma_alpha d * (Gamma_alpha d + 1) / Gamma_beta d ^ 2) (kappa := fun d => / (Gamma_alpha d + 1 + alpha)).
  - intros. now apply over_reals_scal; try typeclasses eauto.
  - auto.
  - intros d (Ha & Hb). split; [auto|]. split; [simpl; lra|]. intros t. now apply gamma_shift2.
  - intros d (Ha & Hb). now apply gamma_variance.
  - intros [a b] x (Ha & Hb) Hx. unfold gamma_known_shape, gamma_var. cbn [Gamma_alpha Gamma_beta nadd nmul nsub NumR] in *.
    split; [lra|]. field. lra.
  - intros [a b] (Ha & Hb). unfold gamma_var. cbn [Gamma_alpha Gamma_beta] in *. split; [apply frac; lra|]. field. lra.
  - intros d (Ha & Hb). eexists. split; [reflexivity|].
    exact (proj2 (CompoundGamma_total (gamma_known_shape_predictive d alpha) Hal Ha Hb)).
Qed.

Lemma normal_known_variance_variance_averages var : 0 < var ->
  variance_averages (over_reals Fminf Finf) Fminf Finf (fun d => pdf (Normal_dist d))
    (fun d x => Ok (normal_known_variance x 1 var d))
    (fun d x => Ok (pdf (Normal_dist (normal_known_variance_predictive var d)) x))
    (fun d => var / (var + Normal_sigma d ^ 2)) (fun d => 0 < Normal_sigma d) (fun _ => True).
Proof.
  intros Hv [mu s] Hs. cbn [Normal_sigma] in Hs. assert (Hs2 : 0 < s ^ 2) by now apply pow_lt.
  split; [cbn [Normal_sigma]; apply frac; lra|]. exists (s ^ 2). set (f := pdf (Normal_dist (normal_known_variance_predictive var (mkNormal mu s)))).
  exists (fun x => var / (var + s ^ 2) * s ^ 2 * f x). split; [now apply norm_variance|]. split; [exact Hs2|]. split.
  - intros x _. do 3 eexists. split; [reflexivity|]. split; [reflexivity|]. split.
    + unfold Normal_dist. apply norm_variance. apply normal_sigma_pos; simpl; lra.
    + fold f. unfold normal_known_variance. cbn [Normal_sigma nsqrt ndiv nadd nlit nsq NumR].
      rewrite pow2_sqrt.
      * assert (0 < s) by exact Hs. field. repeat split; try nra; lra.
      * left. apply Rdiv_lt_0_compat; [lra|]. apply Rplus_lt_0_compat; apply Rdiv_lt_0_compat; lra.
  - cbn [Normal_sigma]. pose proof (is_RInt_gen_mult_l Fminf Finf _ (var / (var + s ^ 2) * s ^ 2) _
      (proj2 (proj2 (Normal_density (normal_known_variance_predictive var (mkNormal mu s)) (sqrt_lt_R0 (var + s ^ 2) ltac:(lra)))))) as Q.
    rewrite Rmult_1_r in Q. exact Q.
Qed.
Lemma normal_known_precision_variance_averages precision : 0 < precision ->
  variance_averages (over_reals Fminf Finf) Fminf Finf (fun d => pdf (Normal_dist d))
    (fun d x => Ok (normal_known_precision x 1 precision d))
    (fun d x => Ok (pdf (Normal_dist (normal_known_precision_predictive precision d)) x))
    (fun d => / (1 + precision * Normal_sigma d ^ 2)) (fun d => 0 < Normal_sigma d) (fun _ => True).
Proof.
  intros Hp d Hs. destruct (normal_known_variance_variance_averages (1 / precision) (Rdiv_lt_0_compat _ _ Rlt_0_1 Hp) d Hs) as (F & v & w & Hv & H0 & Hw & S).
  assert (E : / (1 + precision * Normal_sigma d ^ 2) = 1 / precision / (1 / precision + Normal_sigma d ^ 2)).
  { assert (0 < Normal_sigma d ^ 2) by now apply pow_lt. assert (0 < precision * Normal_sigma d ^ 2) by now apply Rmult_lt_0_compat. field. split; lra. }
  rewrite E. split; [exact F|]. exists v, w. split; [exact Hv|]. split; [exact H0|]. split; [exact Hw|exact S].
Qed.

Definition var_alpha (d : VariancePrior R) : R := match d with VIG d => InverseGamma_alpha d | VSICS d => ScaledInverseChiSquared_nu d / 2 end.
Definition var_beta (d : VariancePrior R) : R :=
  match d with VIG d => InverseGamma_beta d | VSICS d => ScaledInverseChiSquared_nu d * ScaledInverseChiSquared_sigma2 d / 2 end.
Lemma variance_dist_ig d : variance_dist d = S_invgamma_scale (var_alpha d) (var_beta d).
Proof. destruct d as [[a b]|[nu s2]]; reflexivity. Qed.
Lemma variance_ok_pos d : variance_ok d -> 0 < var_alpha d /\ 0 < var_beta d.
Proof.
  destruct d as [[a b]|[nu s2]]; simpl; intros (Ha & Hb); [auto|]. split; [lra|]. apply Rdiv_lt_0_compat; [now apply Rmult_lt_0_compat|lra].
Qed.
Definition variance_shift2 (d : VariancePrior R) : VariancePrior R := VIG (mkInverseGamma (var_alpha d - 2) (var_beta d)).

Lemma normal_known_mean_variance_averages mu :
  variance_averages (over_reals Fminf Finf) Fpos0 Finf (fun d => pdf (variance_dist d))
    (fun d x => Ok (normal_known_mean x (x ^ 2) 1 mu d))
    (fun d x => Ok (pdf (StudentT_dist (normal_known_mean_predictive mu d)) x))
    (fun d => match d with
              | VIG d => (InverseGamma_alpha d - 1) / (InverseGamma_alpha d - / 2)
              | VSICS d => (ScaledInverseChiSquared_nu d - 2) / (ScaledInverseChiSquared_nu d - 1) end)
    (fun d => variance_ok d /\ match d with VIG d => 2 < InverseGamma_alpha d | VSICS d => 4 < ScaledInverseChiSquared_nu d end)
    (fun _ => True).
Proof.
  assert (T : forall d, variance_ok d -> over1 Fpos0 Finf (pdf (variance_dist d)) 1).
  { intros [d|d] (Ha & Hb). exact (proj2 (proj2 (InverseGamma_density d Ha Hb))).
    exact (proj2 (proj2 (ScaledInverseChiSquared_density d Ha Hb))). }
  assert (A : forall d, variance_ok d /\ match d with VIG d => 2 < InverseGamma_alpha d | VSICS d => 4 < ScaledInverseChiSquared_nu d end ->
    2 < var_alpha d /\ 0 < var_beta d).
  { intros d (Hd & H2). split; [|now apply variance_ok_pos]. destruct d; simpl in *; lra. }
  apply (variance_averages_intro (normal_known_mean_prequential mu) T (over_reals Fminf Finf) (fun x => x)) with
    (q := fun t => t ^ 2) (shift := variance_shift2) (var := fun d => var_beta d ^ 2 / ((var_alpha d - 1) ^ 2 * (var_alpha d - 2)))
    (mq := fun d => var_beta d ^ 2 / ((var_alpha d - 1) * (var_alpha d - 2))) (kappa := fun d => / (var_alpha d - / 2)).
  - intros. now apply over_reals_scal; try typeclasses eauto.
  - auto.
  - intros d Hd. destruct (A d Hd) as (H2 & Hb). split; [apply Hd|]. split; [simpl; lra|].
    intros t. rewrite variance_dist_ig. now apply invgamma_shift2.
  - intros d Hd. destruct (A d Hd) as (H2 & Hb). rewrite variance_dist_ig. now apply invgamma_variance.
  - intros d x Hd _.
    assert (E : var_alpha (normal_known_mean x (x ^ 2) 1 mu d) = var_alpha d + / 2).
    { destruct d as [[a b]|[nu s2]]; simpl; unfold ndiv; simpl; field. }
    split.
    + destruct (prequential_single (normal_known_mean_prequential mu) d x (proj1 Hd) Logic.I) as (e & c & Eu & _). injection Eu as Eu.
      destruct (normal_known_mean_prequential mu d [x] (proj1 Hd) ltac:(repeat constructor)) as (e' & c' & E' & Hok & _).
      simpl in E'. injection E' as E' _. subst e'. split; [exact Hok|].
      pose proof (proj1 (A d Hd)) as H2. destruct d as [[a b]|[nu s2]]; simpl in *; lra.
    + rewrite E. pose proof (proj1 (A d Hd)). field. lra.
  - intros d Hd. destruct (A d Hd) as (H2 & Hb). destruct d as [[a b]|[nu s2]];
      cbn [var_alpha var_beta InverseGamma_alpha InverseGamma_beta ScaledInverseChiSquared_nu ScaledInverseChiSquared_sigma2] in *.
    + split; [apply frac; lra|]. field. lra.
    + split; [apply frac; lra|]. field. repeat split; lra.
  - intros d Hd. exists (pdf (StudentT_dist (normal_known_mean_predictive mu d))). split; [reflexivity|].
    refine (proj2 (proj2 (StudentT_density _ _ _)));
    destruct d as [[a b]|[nu s2]]; destruct Hd as (Ha & Hb);
    cbn [InverseGamma_alpha InverseGamma_beta ScaledInverseChiSquared_nu ScaledInverseChiSquared_sigma2 normal_known_mean_predictive
      ScaledInverseChiSquared_to_inverse_gamma StudentT_nu StudentT_sigma ndiv nmul nlit nsqrt NumR] in *; try lra.
    + apply sqrt_lt_R0, Rdiv_lt_0_compat; lra.
    + apply sqrt_lt_R0, Rdiv_lt_0_compat; [|lra]. apply Rdiv_lt_0_compat; [now apply Rmult_lt_0_compat|lra].
Qed.

Lemma bernoulli_variance_averages :
  variance_averages (up_to 1) Fpos0 Fone (fun d => pdf (Beta_dist d))
    (fun d k => Ok (bernoulli_beta (INR k) d))
    (fun d k => Ok (pmf (BetaBinomial_dist (bernoulli_beta_predictive d)) (Z.of_nat k)))
    (fun d => (Beta_alpha d + Beta_beta d) / (Beta_alpha d + Beta_beta d + 1))
    (fun d => 0 < Beta_alpha d /\ 0 < Beta_beta d) (fun k => (k <= 1)%nat).
Proof. exact (binomial_variance_averages 1 Nat.lt_0_1). Qed.

(** ** negative binomial: the factor depends on the observation *)
Lemma series_pos a l : is_series a l -> (forall n, 0 <= a n) -> 0 < a 0%nat -> 0 < l.
Proof.
  intros H P P0. rewrite <- (is_series_unique a l H).
  assert (Ex : ex_series a) by now exists l. rewrite (Series_incr_1 a Ex).
  assert (0 <= Series (fun k => a (S k))); [|lra].
  replace 0 with (Series (fun _ => 0)).
  - apply Series_le; [intros n; split; [lra|apply P]|]. now apply ex_series_incr_1 in Ex.
  - rewrite (Series_ext _ (fun n => 0 * 0)) by (intros; ring). rewrite Series_scal_l. ring.
Qed.

Lemma negative_binomial_variance_decreases (major minor micro : nat) (rest : list nat) (r : R) :
  0 < r -> (1 < major \/ (major = 1 /\ 12 <= minor))%nat ->
  variance_decreases over_nat Fpos0 Fone (fun d => pdf (Beta_dist d))
    (fun d x => Ok (negative_binomial_beta r 1 (INR x) d))
    (fun d x => let* D := BetaNegativeBinomial_dist (major :: minor :: micro :: rest) (negative_binomial_beta_predictive r d) in Ok (pmf D (Z.of_nat x)))
    (fun d => 0 < Beta_alpha d /\ 0 < Beta_beta d) (fun _ => True).
Proof.
  intros Hr Hrel d Hd. set (H := negative_binomial_prequential major minor micro rest r Hr Hrel).
  set (T := fun (d : Beta R) '(conj Ha Hb) => proj2 (proj2 (Beta_density d Ha Hb)) : over1 Fpos0 Fone (pdf (Beta_dist d)) 1).
  assert (W : forall d, 0 < Beta_alpha d /\ 0 < Beta_beta d -> exists f,
    BetaNegativeBinomial_dist (major :: minor :: micro :: rest) (negative_binomial_beta_predictive r d) = Ok f /\ over_nat (fun k => pmf f (Z.of_nat k)) 1).
  { intros d0 H0. destruct (prequential_single H d0 0%nat H0 Logic.I) as (e & c & _ & Ep & _).
    destruct (BetaNegativeBinomial_dist (major :: minor :: micro :: rest) (negative_binomial_beta_predictive r d0)) as [f|] eqn:Ef; [|discriminate].
    exists f. split; [reflexivity|]. apply mass_over_nat.
    apply (BetaNegativeBinomial_mass (major :: minor :: micro :: rest) (negative_binomial_beta_predictive r d0) f); auto; apply H0. }
  destruct Hd as (Ha & Hb).
  set (s1 := fun d => mkBeta (Beta_alpha d + 1) (Beta_beta d)). set (s2 := fun d => mkBeta (Beta_alpha d + 1) (Beta_beta d + 1)).
  set (m1 := fun d => Beta_alpha d / (Beta_alpha d + Beta_beta d)).
  set (m2 := fun d => Beta_alpha d * Beta_beta d / ((Beta_alpha d + Beta_beta d) * (Beta_alpha d + Beta_beta d + 1))).
  set (u := fun x : nat => negative_binomial_beta r 1 (INR x) d).
  assert (U : forall x, Beta_alpha (u x) = Beta_alpha d + r /\ Beta_beta (u x) = Beta_beta d + INR x).
  { intros x. unfold u, negative_binomial_beta. cbn [Beta_alpha Beta_beta nadd nmul NumR]. split; ring. }
  assert (Up : forall x, 0 < Beta_alpha (u x) /\ 0 < Beta_beta (u x)).
  { intros x. destruct (U x) as (-> & ->). pose proof (pos_INR x). lra. }
  assert (O1 : forall d, 0 < Beta_alpha d /\ 0 < Beta_beta d -> 0 < Beta_alpha (s1 d) /\ 0 < Beta_beta (s1 d)) by (intros; simpl; lra).
  assert (O2 : forall d, 0 < Beta_alpha d /\ 0 < Beta_beta d -> 0 < Beta_alpha (s2 d) /\ 0 < Beta_beta (s2 d)) by (intros; simpl; lra).
  destruct (W d (conj Ha Hb)) as (f & Ef & Sf). destruct (W (s1 d) (O1 d (conj Ha Hb))) as (f1 & Ef1 & Sf1). destruct (W (s2 d) (O2 d (conj Ha Hb))) as (f2 & Ef2 & Sf2).
  set (p := fun x : nat => pmf f (Z.of_nat x)).
  assert (P0 : forall x, 0 < p x).
  { intros x. destruct (prequential_single H d x (conj Ha Hb) Logic.I) as (e & c & _ & Ep & Hc & _). rewrite Ef in Ep. simpl in Ep. unfold p. injection Ep as ->. exact Hc. }
  assert (A1 : over_nat (fun x => p x * m1 (u x)) (m1 d)).
  { apply over_nat_scal with (c := m1 d) in Sf1. rewrite Rmult_1_r in Sf1. revert Sf1. apply is_series_ext. intros x.
    destruct (shift_step H T (fun t => t) s1 m1 d x Logic.I (conj Ha Hb) (O1 _ (conj Ha Hb)) (O1 _ (Up x)))
      as (c & c' & Ec & Ec' & _ & K).
    - intros t. now apply beta_shift.
    - intros t. apply beta_shift; apply (Up x).
    - rewrite Ef in Ec. rewrite Ef1 in Ec'. simpl in Ec, Ec'. injection Ec as Ec. injection Ec' as Ec'. unfold p. rewrite Ec, Ec'. now rewrite <- K. }
  assert (A2 : over_nat (fun x => p x * m2 (u x)) (m2 d)).
  { apply over_nat_scal with (c := m2 d) in Sf2. rewrite Rmult_1_r in Sf2. revert Sf2. apply is_series_ext. intros x.
    destruct (shift_step H T (fun t => t * (1 - t)) s2 m2 d x Logic.I (conj Ha Hb) (O2 _ (conj Ha Hb)) (O2 _ (Up x)))
      as (c & c' & Ec & Ec' & _ & K).
    - intros t. now apply beta_shift2.
    - intros t. apply beta_shift2; apply (Up x).
    - rewrite Ef in Ec. rewrite Ef2 in Ec'. simpl in Ec, Ec'. injection Ec as Ec. injection Ec' as Ec'. unfold p. rewrite Ec, Ec'. now rewrite <- K. }
  assert (V : forall d, 0 < Beta_alpha d /\ 0 < Beta_beta d -> beta_var d = m1 d - m2 d - m1 d ^ 2).
  { intros d0 (Ha0 & Hb0). unfold beta_var, m1, m2. field. lra. }
  assert (A3 : ex_series (fun x => p x * m1 (u x) ^ 2)).
  { apply (ex_series_le (V := R_CompleteNormedModule) _ (fun x => p x * m1 (u x) + (-1) * (p x * m2 (u x)))).
    - intros x. change (norm (p x * m1 (u x) ^ 2)) with (Rabs (p x * m1 (u x) ^ 2)).
      rewrite Rabs_pos_eq by (apply Rmult_le_pos; [left; apply P0|apply pow2_ge_0]).
      pose proof (V _ (Up x)) as Ev. pose proof (proj2 (beta_variance (u x) (proj1 (Up x)) (proj2 (Up x)))) as Pv.
      pose proof (P0 x). assert (0 <= p x * beta_var (u x)) by (apply Rmult_le_pos; lra). rewrite Ev in *. nra.
    - exists (plus (m1 d) (-1 * m2 d)). apply (is_series_plus (V := R_NormedModule)); [exact A1|]. exact (over_nat_scal _ (-1) _ A2). }
  destruct A3 as (S & A3).
  exists (beta_var d), (m1 d - m2 d - S), (fun x => p x * beta_var (u x)).
  split; [now apply beta_variance|]. split; [|split].
  - intros x _. exists (p x), (u x), (beta_var (u x)). split; [now rewrite Ef|]. split; [reflexivity|]. split; [|reflexivity].
    apply beta_variance; apply (Up x).
  - pose proof (is_series_plus (V := R_NormedModule) _ _ _ _ A1 (is_series_plus (V := R_NormedModule) _ _ _ _
      (over_nat_scal _ (-1) _ A2) (over_nat_scal _ (-1) _ A3))) as Q.
    replace (m1 d - m2 d - S) with (plus (m1 d) (plus (-1 * m2 d) (-1 * S))) by (unfold plus; simpl; ring).
    revert Q. apply is_series_ext. intros x. rewrite (V _ (Up x)). unfold plus; simpl. ring.
  - rewrite (V d (conj Ha Hb)).
    assert (Q : is_series (fun x => p x * (m1 (u x) - m1 d) ^ 2) (S - m1 d ^ 2)).
    { pose proof (is_series_plus (V := R_NormedModule) _ _ _ _ A3 (is_series_plus (V := R_NormedModule) _ _ _ _
        (over_nat_scal _ (-2 * m1 d) _ A1) (over_nat_scal _ (m1 d ^ 2) _ Sf))) as Q.
      replace (S - m1 d ^ 2) with (plus S (plus (-2 * m1 d * m1 d) (m1 d ^ 2 * 1))) by (unfold plus; simpl; ring).
      revert Q. apply is_series_ext. intros x. fold (p x). unfold plus; simpl. ring. }
    apply series_pos in Q; [lra| |].
    + intros x. apply Rmult_le_pos; [left; apply P0|apply pow2_ge_0].
    + apply Rmult_lt_0_compat; [apply P0|]. destruct (U 0%nat) as (E1 & E2). unfold m1. rewrite E1, E2. simpl INR.
      assert (E : (Beta_alpha d + r) / (Beta_alpha d + r + (Beta_beta d + 0)) - Beta_alpha d / (Beta_alpha d + Beta_beta d)
        = r * Beta_beta d / ((Beta_alpha d + r + Beta_beta d) * (Beta_alpha d + Beta_beta d))) by (field; lra).
      rewrite E. apply pow_lt. apply Rdiv_lt_0_compat; [now apply Rmult_lt_0_compat|]. apply Rmult_lt_0_compat; lra.
Qed.
