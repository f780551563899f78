(** Unnormalised posteriors: C14, C15, C16. *)

From Coq Require Import Reals Lra Psatz ZArith Lia Classical.
From Coquelicot Require Import Coquelicot.
From Verif Require Import Model.Num Model.Py Model.Dists Model.ScipyDist Model.Models Spec.Special Spec.Densities Spec.Bayes.
From Verif Require Import Analysis.Improper Analysis.RealAux Analysis.GammaBeta Analysis.GammaFacts Analysis.Gauss Proofs.Pdfs Proofs.Conj.
From Coq Require Import List.
Import ListNotations.
Open Scope R_scope.

Lemma prodR_pos l : Forall (fun x => 0 < x) l -> 0 < prodR l.
Proof. induction 1; simpl. lra. now apply Rmult_lt_0_compat. Qed.

Lemma Rpower_ln_exp x y : Rpower x y = exp (y * ln x).
Proof. reflexivity. Qed.

(** C14: gamma *)
Lemma gamma_proportional (prior : GammaProportional R) (data : list R) :
  0 < GammaProportional_p prior -> Forall (fun x => 0 < x) data ->
  let ll d (t : R * R) := exp (GammaProportional_approx_log_likelihood ln (fun a => ln (Gamma_fun a)) d (fst t) (snd t)) in
  proportional (fun t => 0 < fst t /\ 0 < snd t)
    (ll (gamma (sumR data) (prodR data) (INR (length data)) prior))
    (fun t => ll prior t * likelihood (fun t x => pdf (Gamma_dist (mkGamma (fst t) (snd t))) x) data t).
Proof.
  destruct prior as [p q r s]. simpl GammaProportional_p. intros Hp H ll. exists 1. split; [lra|].
  intros [a b]. simpl fst. simpl snd. intros [Ha Hb]. rewrite Rmult_1_l. unfold ll. clear ll.
  cbv [GammaProportional_approx_log_likelihood gamma GammaProportional_p GammaProportional_q GammaProportional_r GammaProportional_s nmul nadd nsub ndiv nlit NumR fst snd].
  pose proof (Gamma_fun_pos a Ha) as HG.
  induction H as [|x l Hx Hl IH].
  - rewrite likelihood_nil. simpl. rewrite !Rplus_0_r, !Rmult_1_r. reflexivity.
  - rewrite likelihood_cons, sumR_cons, prodR_cons, length_INR_cons.
    set (L := likelihood _ l (a, b)) in *.
    cbv [Gamma_dist Gamma_alpha Gamma_beta ndiv nlit NumR fst snd].
    rewrite gamma_pdf by auto. pose proof (prodR_pos l Hl).
    rewrite !(ln_mult p) in * by (auto; nra). rewrite ln_mult by auto.
    rewrite !Rpower_ln_exp.
    unfold Rdiv. replace (/ Gamma_fun a) with (exp (- ln (Gamma_fun a))) by (rewrite exp_Ropp, exp_ln; auto).
    match type of IH with ?A = exp ?P * L =>
      transitivity (exp (a * ln b + - ln (Gamma_fun a) + ((a - 1) * ln x + - (b * x))) * A) end.
    + rewrite <- exp_plus. f_equal. ring.
    + rewrite IH, !exp_plus. ring.
Qed.

Lemma gamma_known_rate_proportional (prior : GammaKnownRateProportional R) (b : R) (data : list R) :
  0 < GammaKnownRateProportional_a prior -> 0 < b -> Forall (fun x => 0 < x) data ->
  let ll d a := exp (GammaKnownRateProportional_approx_log_likelihood ln (fun a => ln (Gamma_fun a)) d a b) in
  proportional (fun a => 0 < a)
    (ll (gamma_known_rate (prodR data) (INR (length data)) b prior))
    (fun a => ll prior a * likelihood (fun a x => pdf (Gamma_dist (mkGamma a b)) x) data a).
Proof.
  destruct prior as [p q r]. simpl GammaKnownRateProportional_a. intros Hp Hb H ll.
  exists (exp (b * sumR data)). split; [apply exp_pos|].
  intros a Ha. unfold ll. clear ll.
  cbv [GammaKnownRateProportional_approx_log_likelihood gamma_known_rate GammaKnownRateProportional_a GammaKnownRateProportional_b GammaKnownRateProportional_c nmul nadd nsub ndiv nlit NumR].
  pose proof (Gamma_fun_pos a Ha) as HG.
  induction H as [|x l Hx Hl IH].
  - rewrite likelihood_nil. simpl. rewrite Rmult_0_r, exp_0, !Rplus_0_r, !Rmult_1_r, Rmult_1_l. reflexivity.
  - rewrite likelihood_cons, sumR_cons, prodR_cons, length_INR_cons.
    set (L := likelihood _ l a) in *.
    cbv [Gamma_dist Gamma_alpha Gamma_beta ndiv nlit NumR].
    rewrite gamma_pdf by auto. pose proof (prodR_pos l Hl).
    rewrite !ln_mult in * by (auto; nra).
    rewrite !Rpower_ln_exp. unfold Rdiv. replace (/ Gamma_fun a) with (exp (- ln (Gamma_fun a))) by (rewrite exp_Ropp, exp_ln; auto).
    match type of IH with ?A = exp ?B * (exp ?P * L) =>
      transitivity (exp (b * x + (a * ln b + - ln (Gamma_fun a) + ((a - 1) * ln x + - (b * x)))) * A) end.
    + rewrite <- exp_plus. f_equal. ring.
    + rewrite IH, Rmult_plus_distr_l, !exp_plus. ring.
Qed.

Lemma beta_proportional (prior : BetaProportional R) (data : list R) :
  0 < BetaProportional_p prior -> 0 < BetaProportional_q prior -> Forall (fun x => 0 < x < 1) data ->
  let ll d (t : R * R) := exp (BetaProportional_approx_log_likelihood ln (fun a => ln (Gamma_fun a)) d (fst t) (snd t)) in
  proportional (fun t => 0 < fst t /\ 0 < snd t)
    (ll (beta (prodR data) (prodR (map (fun x => 1 - x) data)) (INR (length data)) prior))
    (fun t => ll prior t * likelihood (fun t x => pdf (Beta_dist (mkBeta (fst t) (snd t))) x) data t).
Proof.
  destruct prior as [p q k]. simpl BetaProportional_p. simpl BetaProportional_q. intros Hp Hq H ll.
  exists (exp (sumR (map (fun x => ln x + ln (1 - x)) data))). split; [apply exp_pos|].
  intros [a b]. simpl fst. simpl snd. intros [Ha Hb]. unfold ll. clear ll.
  cbv [BetaProportional_approx_log_likelihood beta BetaProportional_p BetaProportional_q BetaProportional_k nmul nadd nsub ndiv nlit NumR fst snd].
  pose proof (Gamma_fun_pos a Ha) as HGa. pose proof (Gamma_fun_pos b Hb) as HGb. pose proof (Gamma_fun_pos (a + b) ltac:(lra)) as HGab.
  induction H as [|x l Hx Hl IH].
  - rewrite likelihood_nil. simpl. rewrite exp_0, !Rplus_0_r, !Rmult_1_r, Rmult_1_l. reflexivity.
  - simpl map. rewrite likelihood_cons, sumR_cons, !prodR_cons, length_INR_cons.
    set (L := likelihood _ l (a, b)) in *.
    cbv [Beta_dist Beta_alpha Beta_beta].
    rewrite beta_pdf by auto.
    assert (0 < prodR l). { apply prodR_pos. eapply Forall_impl; [|exact Hl]. simpl. intros; lra. }
    assert (0 < prodR (map (fun x => 1 - x) l)). { apply prodR_pos. apply Forall_map. eapply Forall_impl; [|exact Hl]. simpl. intros; lra. }
    rewrite !(ln_mult p), !(ln_mult q) in * by (auto; apply Rmult_lt_0_compat; lra).
    rewrite !ln_mult by (auto; lra).
    rewrite Beta_fun_Gamma by auto.
    replace (/ (Gamma_fun a * Gamma_fun b / Gamma_fun (a + b))) with (exp (ln (Gamma_fun (a + b)) + (- ln (Gamma_fun a) + - ln (Gamma_fun b)))).
    2:{ rewrite !exp_plus, !exp_Ropp, !exp_ln by auto. field. lra. }
    rewrite !Rpower_ln_exp.
    match type of IH with ?A = exp ?B * (exp ?P * L) =>
      transitivity (exp (ln x + ln (1 - x) + (ln (Gamma_fun (a + b)) + (- ln (Gamma_fun a) + - ln (Gamma_fun b)) + ((a - 1) * ln x + (b - 1) * ln (1 - x)))) * A) end.
    + rewrite <- exp_plus. f_equal. ring.
    + rewrite IH. rewrite (exp_plus (ln x + ln (1 - x)) (sumR _)). rewrite (exp_plus (ln x + ln (1 - x))).
      rewrite (exp_plus (ln (Gamma_fun (a + b)) + _)), (exp_plus ((a - 1) * ln x)). ring.
Qed.

(** C15 *)
Lemma Bessel_i0_pos k : 0 < Bessel_i0 k.
Proof.
  unfold Bessel_i0. pose proof PI_RGT_0. apply Rmult_lt_0_compat. now apply Rinv_0_lt_compat.
  apply RInt_gt_0; auto. intros; apply exp_pos.
  intros x _. apply (ex_derive_continuous (V:=R_NormedModule)). auto_derive; auto.
Qed.

Lemma vonmises_pdf k l x : pdf (S_vonmises_loc k l) x = exp (k * cos (x - l)) / (2 * PI * Bessel_i0 k).
Proof. simpl. unfold locscale, std_vonmises. rewrite !Rdiv_1. reflexivity. Qed.

Lemma von_mises_known_direction_proportional (prior : VonMisesKnownDirectionProportional R) (mu : R) (data : list R) :
  let ll d k := exp (VonMisesKnownDirectionProportional_approx_log_likelihood ln Bessel_i0 d k) in
  proportional (fun k => 0 < k)
    (ll (von_mises_known_direction (sumR (map (fun x => cos (x - mu)) data)) (INR (length data)) prior))
    (fun k => ll prior k * likelihood (fun k x => pdf (VonMises_dist (mkVonMises mu k)) x) data k).
Proof.
  destruct prior as [c r]. intros ll. pose proof PI_RGT_0.
  exists (exp (INR (length data) * ln (2 * PI))). split; [apply exp_pos|].
  intros k Hk. unfold ll; clear ll. pose proof (Bessel_i0_pos k) as HI.
  cbv [VonMisesKnownDirectionProportional_approx_log_likelihood von_mises_known_direction VonMisesKnownDirectionProportional_c VonMisesKnownDirectionProportional_r nmul nadd nsub NumR].
  induction data as [|x l IH].
  - rewrite likelihood_nil. simpl. rewrite Rmult_0_l, exp_0, !Rplus_0_r, Rmult_1_l, Rmult_1_r. reflexivity.
  - simpl map. rewrite likelihood_cons, sumR_cons, length_INR_cons.
    set (L := likelihood _ l k) in *.
    cbv [VonMises_dist VonMises_mu VonMises_kappa]. rewrite vonmises_pdf.
    unfold Rdiv. replace (/ (2 * PI * Bessel_i0 k)) with (exp (- (ln (2 * PI) + ln (Bessel_i0 k)))).
    2:{ rewrite exp_Ropp, exp_plus, !exp_ln by (auto; lra). reflexivity. }
    match type of IH with ?A = exp ?B * (exp ?P * L) =>
      transitivity (exp (ln (2 * PI)) * (exp (k * cos (x - mu)) * exp (- (ln (2 * PI) + ln (Bessel_i0 k)))) * A) end.
    + rewrite <- !exp_plus. f_equal. ring.
    + rewrite IH. rewrite Rmult_plus_distr_r, Rmult_1_l, (exp_plus (ln (2 * PI)) (_ * _)). ring.
Qed.

(** C16: what the true posterior is. *)
Lemma von_mises_likelihood kappa data mu :
  likelihood (fun mu x => pdf (VonMises_dist (mkVonMises mu kappa)) x) data mu =
  / (2 * PI * Bessel_i0 kappa) ^ length data *
  exp (kappa * (sumR (map cos data) * cos mu + sumR (map sin data) * sin mu)).
Proof.
  pose proof (Bessel_i0_pos kappa). pose proof PI_RGT_0.
  induction data as [|x l IH].
  - rewrite likelihood_nil. simpl. rewrite Rinv_1, Rmult_1_l, !Rmult_0_l, Rplus_0_l, Rmult_0_r, exp_0. reflexivity.
  - rewrite likelihood_cons, IH. cbv [VonMises_dist VonMises_mu VonMises_kappa]. rewrite vonmises_pdf.
    simpl map. rewrite !sumR_cons. rewrite cos_minus. simpl length. rewrite <- tech_pow_Rmult, Rinv_mult.
    replace (kappa * ((cos x + sumR (map cos l)) * cos mu + (sin x + sumR (map sin l)) * sin mu))
     with (kappa * (cos x * cos mu + sin x * sin mu) + kappa * (sumR (map cos l) * cos mu + sumR (map sin l) * sin mu)) by ring.
    rewrite exp_plus. unfold Rdiv. ring.
Qed.

(** [arctan2 y x] is an angle of the vector (x, y). *)
Definition is_arctan2 (arctan2 : R -> R -> R) : Prop :=
  forall y x, sqrt (x ^ 2 + y ^ 2) * cos (arctan2 y x) = x /\ sqrt (x ^ 2 + y ^ 2) * sin (arctan2 y x) = y.

Lemma von_mises_true_posterior a b kappa (data : list R) (rho th : R) :
  rho * cos th = a * cos b + kappa * sumR (map cos data) ->
  rho * sin th = a * sin b + kappa * sumR (map sin data) ->
  proportional (fun _ => True)
    (fun mu => pdf (VonMises_dist (mkVonMises th rho)) mu)
    (fun mu => pdf (VonMises_dist (mkVonMises b a)) mu * likelihood (fun mu x => pdf (VonMises_dist (mkVonMises mu kappa)) x) data mu).
Proof.
  intros Hc Hs. pose proof (Bessel_i0_pos kappa). pose proof (Bessel_i0_pos a). pose proof (Bessel_i0_pos rho). pose proof PI_RGT_0.
  assert (Hp : 0 < (2 * PI * Bessel_i0 kappa) ^ length data) by (apply pow_lt; nra).
  exists (2 * PI * Bessel_i0 a * (2 * PI * Bessel_i0 kappa) ^ length data / (2 * PI * Bessel_i0 rho)). split.
  - apply Rdiv_lt_0_compat; [apply Rmult_lt_0_compat; nra|nra].
  - intros mu _. rewrite von_mises_likelihood. cbv [VonMises_dist VonMises_mu VonMises_kappa]. rewrite !vonmises_pdf.
    replace (rho * cos (mu - th)) with (a * cos (mu - b) + kappa * (sumR (map cos data) * cos mu + sumR (map sin data) * sin mu)).
    2:{ rewrite !cos_minus. replace (rho * (cos mu * cos th + sin mu * sin th)) with (rho * cos th * cos mu + rho * sin th * sin mu) by ring.
        rewrite Hc, Hs. ring. }
    rewrite exp_plus. field. repeat split; lra.
Qed.
