(** Predictive distributions of the models that have no predictive function. *)

From Coq Require Import Reals Lra ZArith Lia.
From Coquelicot Require Import Coquelicot.
From Verif Require Import Model.Num Model.Py Model.Dists Model.ScipyDist Model.Models.
From Verif Require Import Spec.Special Spec.Densities Spec.Bayes Spec.Joint.
From Verif Require Import Analysis.Improper Analysis.RealAux Analysis.GammaBeta Analysis.GammaFacts Proofs.Pdfs Proofs.Conj Proofs.Predictive Proofs.Normalised.
From Coq Require Import List.
Import ListNotations.
Open Scope R_scope.

Lemma pareto_gamma_law (d : Gamma R) (x_m x : R) : 0 < Gamma_alpha d -> 0 < Gamma_beta d -> 0 < x_m -> x_m <= x ->
  marginal Fpos0 Finf (pdf (Gamma_dist d)) (fun alpha => pdf (Pareto_dist (mkPareto x_m alpha)) x)
    (pdf (Lomax_dist (mkLomax (Gamma_alpha d) (Gamma_beta d))) (ln (x / x_m)) / x).
Proof.
  destruct d as [a b]; cbn [Gamma_alpha Gamma_beta]. intros Ha Hb Hm Hx.
  assert (Q : 1 <= x / x_m) by (apply Rle_div_r; lra).
  assert (L : 0 <= ln (x / x_m)) by (rewrite <- ln_1; destruct Q as [Q|<-]; [left; apply ln_increasing; lra|lra]).
  pose proof (Gamma_fun_pos a Ha).
  apply (marginal_kernel _ _ _ ends_pos _ _ (fun t => Rpower t (a + 1 - 1) * exp (- ((b + ln (x / x_m)) * t)))
     (Rpower b a / Gamma_fun a / x) (Gamma_fun (a + 1) / Rpower (b + ln (x / x_m)) (a + 1))).
  - intros t Ht. unfold Gamma_dist, Pareto_dist; cbn [Gamma_alpha Gamma_beta Pareto_x_m Pareto_alpha].
    change (ndiv (nlit 1) b) with (1 / b). rewrite gamma_pdf, pareto_pdf by auto.
    rewrite (Rpower_succ x t) by lra.
    assert (E : exp (- (t * ln (x / x_m))) = Rpower x_m t / Rpower x t).
    { rewrite ln_div by lra. unfold Rpower, Rdiv. rewrite <- exp_Ropp, <- exp_plus. f_equal. ring. }
    replace (- ((b + ln (x / x_m)) * t)) with (- (b * t) + - (t * ln (x / x_m))) by ring.
    rewrite exp_plus, E.
    replace (a + 1 - 1) with (1 + (a - 1)) by ring. rewrite Rpower_plus, Rpower_1 by auto.
    pose proof (Rpower_pos x t). field. repeat split; lra.
  - apply is_RInt_gen_Gamma_scaled; lra.
  - unfold Lomax_dist; cbn [Lomax_alpha Lomax_lam]. rewrite lomax_pdf by auto. rewrite Gamma_fun_succ by auto.
    assert (0 < Rpower (b + ln (x / x_m)) (a + 1)) by apply Rpower_pos. field. repeat split; lra.
Qed.

(** The posterior of the page: the rate is positive. *)
Lemma pareto_rate_pos (prior : Gamma R) (x_m : R) (data : list R) : 0 < Gamma_beta prior -> 0 < x_m -> List.Forall (fun x => x_m <= x) data ->
  0 < Gamma_beta (pareto_gamma ln (INR (length data)) (sumR (map ln data)) x_m prior).
Proof.
  intros Hb Hm H. change (0 < Gamma_beta prior + sumR (map ln data) - INR (length data) * ln x_m).
  enough (INR (length data) * ln x_m <= sumR (map ln data)) by lra.
  induction H as [|x l Hx H IH]; [simpl; unfold sumR; simpl; lra|].
  cbn [length map]. rewrite S_INR, sumR_cons. assert (ln x_m <= ln x) by (destruct Hx as [Hx|<-]; [left; now apply ln_increasing|lra]). lra.
Qed.

Lemma pareto_gamma_unsupported (prior : Gamma R) (x_m : R) (data : list R) :
  0 < Gamma_alpha prior -> 0 < Gamma_beta prior -> 0 < x_m -> List.Forall (fun x => x_m <= x) data ->
  let posterior := pareto_gamma ln (INR (length data)) (sumR (map ln data)) x_m prior in
  forall x, x_m <= x ->
  marginal Fpos0 Finf (pdf (Gamma_dist posterior)) (fun alpha => pdf (Pareto_dist (mkPareto x_m alpha)) x)
    (pdf (Lomax_dist (mkLomax (Gamma_alpha posterior) (Gamma_beta posterior))) (ln (x / x_m)) / x).
Proof.
  intros Ha Hb Hm Hd posterior x Hx. apply pareto_gamma_law; auto.
  - change (0 < Gamma_alpha prior + INR (length data)). pose proof (pos_INR (length data)). lra.
  - now apply pareto_rate_pos.
Qed.

Lemma weibull_law (d : InverseGamma R) (shape x : R) : 0 < InverseGamma_alpha d -> 0 < InverseGamma_beta d -> 0 < shape -> 0 < x ->
  marginal Fpos0 Finf (pdf (InverseGamma_dist d)) (fun theta => pdf (Weibull_dist (mkWeibull shape theta)) x)
    (pdf (Lomax_dist (mkLomax (InverseGamma_alpha d) (InverseGamma_beta d))) (Rpower x shape) * (shape * Rpower x (shape - 1))).
Proof.
  destruct d as [a b]; cbn [InverseGamma_alpha InverseGamma_beta]. intros Ha Hb Hs Hx.
  pose proof (Rpower_pos x shape) as L. pose proof (Gamma_fun_pos a Ha).
  apply (marginal_kernel _ _ _ ends_pos _ _ (fun t => Rpower t (- (a + 1) - 1) * exp (- ((b + Rpower x shape) / t)))
     (Rpower b a / Gamma_fun a * (shape * Rpower x (shape - 1))) (Gamma_fun (a + 1) / Rpower (b + Rpower x shape) (a + 1))).
  - intros t Ht. unfold InverseGamma_dist, Weibull_dist; cbn [InverseGamma_alpha InverseGamma_beta Weibull_beta Weibull_theta].
    change (npow t (ndiv (nlit 1) shape)) with (Rpower t (1 / shape)).
    rewrite weibull_pdf, invgamma_pdf by (auto; apply Rpower_pos).
    rewrite Rpower_mult. replace (1 / shape * shape) with 1 by (field; lra). rewrite Rpower_1 by auto.
    replace (- (a + 1) - 1) with (- (1) + (- a - 1)) by ring. rewrite Rpower_plus, (Rpower_Ropp t 1), Rpower_1 by auto.
    replace (- ((b + Rpower x shape) / t)) with (- (Rpower x shape / t) + - (b / t)) by (field; lra). rewrite exp_plus. unfold Rdiv. ring.
  - apply is_RInt_gen_InvGamma; lra.
  - unfold Lomax_dist; cbn [Lomax_alpha Lomax_lam]. rewrite lomax_pdf by (auto; lra). rewrite Gamma_fun_succ by auto.
    assert (0 < Rpower (b + Rpower x shape) (a + 1)) by apply Rpower_pos. field. repeat split; lra.
Qed.

Lemma inverse_gamma_law (d : Gamma R) (alpha x : R) : 0 < Gamma_alpha d -> 0 < Gamma_beta d -> 0 < alpha -> 0 < x ->
  marginal Fpos0 Finf (pdf (Gamma_dist d)) (fun rate => pdf (InverseGamma_dist (mkInverseGamma alpha rate)) x)
    (pdf (CompoundGamma_dist (gamma_known_shape_predictive d alpha)) (1 / x) / x ^ 2).
Proof.
  intros Ha Hb Hal Hx. assert (X : 0 < 1 / x) by (apply Rdiv_lt_0_compat; lra).
  pose proof (gamma_known_shape_predictive_marginal d alpha (1 / x) Ha Hb Hal X) as M. unfold marginal in *.
  apply (is_RInt_gen_mult_l _ _ _ (/ x ^ 2)) in M. replace (pdf (CompoundGamma_dist (gamma_known_shape_predictive d alpha)) (1 / x) / x ^ 2)
    with (/ x ^ 2 * pdf (CompoundGamma_dist (gamma_known_shape_predictive d alpha)) (1 / x)) by (unfold Rdiv; ring).
  revert M. apply (is_RInt_gen_ext_on _ _ _ ends_pos). intros t Ht. rewrite <- Rmult_assoc. f_equal.
  unfold Gamma_dist, InverseGamma_dist; cbn [Gamma_alpha Gamma_beta InverseGamma_alpha InverseGamma_beta].
  change (ndiv (nlit 1) t) with (1 / t). rewrite gamma_pdf, invgamma_pdf by auto.
  replace (t * (1 / x)) with (t / x) by (field; lra).
  replace (1 / x) with (/ x) by (field; lra). rewrite Rpower_inv_base by auto.
  replace (- alpha - 1) with (- (alpha - 1) - 2) by ring. rewrite (Rpower_minus x (- (alpha - 1)) 2), (Rpower_Ropp x (alpha - 1)).
  replace (Rpower x 2) with (x ^ 2) by (rewrite <- (Rpower_pow 2 x) by auto; f_equal; simpl; lra).
  pose proof (Rpower_pos x (alpha - 1)). field. repeat split; try lra. apply Rgt_not_eq, Gamma_fun_pos; lra.
Qed.

Lemma uniform_law (d : Pareto R) (x : R) : 0 < Pareto_alpha d -> 0 < Pareto_x_m d -> 0 <= x ->
  marginal Fpos0 Finf (pdf (Pareto_dist d)) (fun theta => pdf (Uniform_dist (mkUniform 0 theta)) x)
    (Pareto_alpha d * Rpower (Pareto_x_m d) (Pareto_alpha d) / ((Pareto_alpha d + 1) * Rpower (Rmax (Pareto_x_m d) x) (Pareto_alpha d + 1))).
Proof.
  destruct d as [m a]; cbn [Pareto_alpha Pareto_x_m]. intros Ha Hm Hx.
  destruct (uniform_pareto_bayes (mkPareto m a) x []) as (Z & HZ & HI & HP); auto.
  set (M := Rmax m x) in *. assert (HM : m <= M) by apply Rmax_l. assert (Hxm : x <= M) by apply Rmax_r.
  specialize (HP M).
  assert (E : Z = a * Rpower m a / ((a + 1) * Rpower M (a + 1))).
  { change (pdf (S_pareto_scale (a + INR 1) M) M = pdf (S_pareto_scale a m) M * (pdf (S_uniform 0 M) x * 1) / Z) in HP.
    change (INR 1) with 1 in HP. rewrite !pareto_pdf, uniform_pdf in HP by lra. rewrite (Rpower_succ M (a + 1)) in HP by lra.
    assert (0 < Rpower M (a + 1)) by apply Rpower_pos. assert (0 < Rpower m a) by apply Rpower_pos.
    replace ((a + 1) * Rpower M (a + 1) / (Rpower M (a + 1) * M)) with ((a + 1) / M) in HP by (field; lra).
    replace (a * Rpower m a / Rpower M (a + 1) * (/ M * 1) / Z) with (a * Rpower m a / Rpower M (a + 1) / Z / M) in HP by (field; lra).
    apply (f_equal (fun q => q * M * Z / (a + 1))) in HP.
    replace ((a + 1) / M * M * Z / (a + 1)) with Z in HP by (field; lra). rewrite HP. field. lra. }
  rewrite <- E. unfold marginal. revert HI. apply (is_RInt_gen_ext_on _ _ _ ends_pos). intros t Ht.
  unfold likelihood. simpl. ring.
Qed.
