(** Concentration and predictive limit of [normal]. *)

From Coq Require Import Reals Lra Lia Psatz ZArith.
From Coquelicot Require Import Coquelicot.
From Verif Require Import Model.Num Model.Py Model.NdArray Model.Dists Model.ScipyDist Model.Models.
From Verif Require Import Spec.Special Spec.Densities Spec.Bayes Spec.Joint Spec.Moments Spec.Normalised Spec.Limits.
From Verif Require Import Analysis.Improper Analysis.RealAux Analysis.GammaBeta Analysis.GammaFacts Analysis.Concentration.
From Verif Require Import Proofs.Pdfs Proofs.Conj Proofs.Predictive Proofs.Joint Proofs.Convert Proofs.Normalised Proofs.Moments Proofs.Calibration Proofs.Spread
  Proofs.Limits Proofs.LimitModels Proofs.LimitPredictive Proofs.LimitJoint.
From Coq Require Import List.
Import ListNotations.
Open Scope R_scope.

(** The normal density as a function of mean and precision. *)
Definition by_precision (y m w : R) : R := sqrt w / sqrt (2 * PI) * exp (- (w * (y - m) ^ 2 / 2)).

Lemma by_precision_var y m v : 0 < v -> pdf (Normal_dist (mkNormal m (sqrt v))) y = by_precision y m (/ v).
Proof.
  intros Hv. unfold Normal_dist. cbn [Normal_mu Normal_sigma]. assert (0 < sqrt v) by now apply sqrt_lt_R0. pose proof sqrt_2pi_pos.
  rewrite norm_pdf by assumption. unfold by_precision. rewrite sqrt_inv. rewrite pow2_sqrt by lra.
  replace (- (y - m) ^ 2 / (2 * v)) with (- (/ v * (y - m) ^ 2 / 2)) by (field; lra). field. lra.
Qed.

Lemma by_precision_prec y m t : 0 < t -> pdf (Normal_dist (mkNormal m (/ sqrt t))) y = by_precision y m t.
Proof.
  intros Ht. assert (Hi : 0 < / t) by now apply Rinv_0_lt_compat.
  rewrite <- sqrt_inv. rewrite by_precision_var by exact Hi. now rewrite Rinv_inv.
Qed.

Lemma by_precision_bound y m w : 0 < w -> Rabs (by_precision y m w) <= / sqrt (2 * PI) * (1 + w ^ 2).
Proof.
  intros Hw. pose proof sqrt_2pi_pos. unfold by_precision. pose proof (sqrt_pos w) as Q0. pose proof (sqrt_sqrt w ltac:(lra)) as Q.
  assert (0 < exp (- (w * (y - m) ^ 2 / 2)) <= 1).
  { split; [apply exp_pos|]. rewrite <- exp_0. assert (K : - (w * (y - m) ^ 2 / 2) <= 0) by (pose proof (pow2_ge_0 (y - m)); nra).
    destruct K as [K|K]; [left; now apply exp_increasing|right; now rewrite K]. }
  assert (0 < / sqrt (2 * PI)) by now apply Rinv_0_lt_compat.
  assert (sqrt w <= 1 + w ^ 2).
  { pose proof (pow2_ge_0 w). pose proof (pow2_ge_0 (w - 1)). pose proof (pow2_ge_0 (sqrt w - 1)). set (s := sqrt w) in *.
    assert (s <= (1 + w) / 2) by nra. nra. }
  unfold Rdiv at 1. rewrite Rabs_pos_eq by (apply Rmult_le_pos; nra).
  apply Rle_trans with (sqrt w * / sqrt (2 * PI) * 1); [apply Rmult_le_compat_l; nra|]. nra.
Qed.

Lemma by_precision_cont y m0 w0 : 0 < w0 -> forall eps, 0 < eps -> exists delta, 0 < delta /\
  forall m w, Rabs (m - m0) < delta -> Rabs (w - w0) < delta -> Rabs (by_precision y m w - by_precision y m0 w0) < eps.
Proof.
  intros Hw eps He.
  assert (C : continuous (fun q : R * R => by_precision y (fst q) (snd q)) (m0, w0)).
  { unfold by_precision. unfold Rdiv. 
    apply (continuous_mult (K := R_AbsRing) (fun q : R * R => sqrt (snd q) * / sqrt (2 * PI)) (fun q => exp (- (snd q * (y - fst q) ^ 2 * / 2)))).
    - apply (continuous_mult (K := R_AbsRing) (fun q : R * R => sqrt (snd q)) (fun _ => / sqrt (2 * PI))); [|apply continuous_const].
      apply (continuous_comp snd sqrt); [apply continuous_snd|]. apply continuous_sqrt.
    - apply (continuous_comp (fun q : R * R => - (snd q * (y - fst q) ^ 2 * / 2)) exp); [|apply continuous_exp].
      apply (continuous_opp (V := R_NormedModule) (fun q : R * R => snd q * (y - fst q) ^ 2 * / 2)).
      apply (continuous_mult (K := R_AbsRing) (fun q : R * R => snd q * (y - fst q) ^ 2) (fun _ => / 2)); [|apply continuous_const].
      apply (continuous_mult (K := R_AbsRing) (fun q : R * R => snd q) (fun q => (y - fst q) ^ 2)); [apply continuous_snd|].
      apply (continuous_comp (fun q : R * R => fst q) (fun m => (y - m) ^ 2)); [apply continuous_fst|].
      apply (ex_derive_continuous (V:=R_NormedModule)). auto_derive. auto. }
  destruct (C _ (locally_ball (by_precision y m0 w0) (mkposreal _ He))) as (d & Hd). exists d. split; [apply cond_pos|].
  intros m w Hm Hw'. exact (Hd (m, w) (conj Hm Hw')).
Qed.

(** ** the two families *)
Section Family.
Context (mu nu a b : nat -> R) (m0 v0 : R).
Hypothesis nu_pos : forall N, 0 < nu N.
Hypothesis a_pos : forall N, 0 < a N.
Hypothesis b_pos : forall N, 0 < b N.
Hypothesis v0_pos : 0 < v0.
Hypothesis nu_lim : is_lim_seq nu p_infty.
Hypothesis mu_lim : is_lim_seq mu m0.
Hypothesis a_lim : is_lim_seq (fun N => / a N) 0.
Hypothesis r_lim : is_lim_seq (fun N => b N / a N) v0.

Lemma inv_lim : is_lim_seq (fun N => a N / b N) (/ v0).
Proof.
  apply is_lim_seq_ext with (fun N => / (b N / a N)).
  - intros N. specialize (a_pos N). specialize (b_pos N). field. lra.
  - replace (Finite (/ v0)) with (Rbar_inv v0) by reflexivity. apply is_lim_seq_inv; [exact r_lim|]. intros Q. injection Q. lra.
Qed.

Lemma nig_plane (h : R -> R -> R) (h0 : R) (L : nat -> R) :
  (forall eps, 0 < eps -> exists C, 0 <= C /\ forall m v, 0 < v -> Rabs (h m v - h0) <= eps + C * ((/ v - / v0) ^ 2 + / v * (m - m0) ^ 2)) ->
  (forall N, marginal2 Fminf Finf Fpos0 Finf positive (nig_pdf (mu N) (nu N) (a N) (b N)) h (L N)) -> is_lim_seq L h0.
Proof.
  intros Hh HL.
  apply (plane_limit (fun N => pdf (S_invgamma_scale (a N) (b N))) Rinv (fun N v => sqrt (v / nu N)) mu nu (fun N => a N / b N)
    (fun N => a N / b N ^ 2 + (a N / b N - / v0) ^ 2) m0 (/ v0)) with (h := h); auto.
  - intros N v _. exact (proj1 (invgamma_density (a N) (b N) (a_pos N) (b_pos N)) v).
  - intros N. exact (proj2 (proj2 (invgamma_density (a N) (b N) (a_pos N) (b_pos N)))).
  - intros v Hv. now apply Rinv_0_lt_compat.
  - intros N v Hv. apply sqrt_lt_R0. now apply Rdiv_lt_0_compat.
  - intros N v Hv. rewrite pow2_sqrt by (left; now apply Rdiv_lt_0_compat). specialize (nu_pos N). field. lra.
  - intros N. pose proof (is_RInt_gen_mult_l Fpos0 Finf _ (a N / b N) _ (proj2 (proj2 (invgamma_density (a N + 1) (b N) ltac:(specialize (a_pos N); lra) (b_pos N))))) as Q.
    rewrite Rmult_1_r in Q. revert Q. apply (is_RInt_gen_ext_on _ _ _ ends_pos). intros t Ht. now rewrite invgamma_shift_inv.
  - intros N. now apply invgamma_spread.
  - exact inv_lim.
  - now apply invgamma_spread_lim.
Qed.

Lemma gamma_scale_density a' b' : 0 < a' -> 0 < b' -> is_density 0 p_infty (pdf (S_gamma_scale a' (/ b'))).
Proof.
  intros Ha Hb. replace (/ b') with (1 / b') by (field; lra). exact (Gamma_density (mkGamma a' b') Ha Hb).
Qed.

Lemma ng_plane (h : R -> R -> R) (h0 : R) (L : nat -> R) :
  (forall eps, 0 < eps -> exists C, 0 <= C /\ forall m t, 0 < t -> Rabs (h m t - h0) <= eps + C * ((t - / v0) ^ 2 + t * (m - m0) ^ 2)) ->
  (forall N, marginal2 Fminf Finf Fpos0 Finf positive (ng_pdf (mu N) (nu N) (a N) (b N)) h (L N)) -> is_lim_seq L h0.
Proof.
  intros Hh HL.
  assert (G : forall N, S_gamma_scale (a N) (/ b N) = Gamma_dist (mkGamma (a N) (b N))).
  { intros N. unfold Gamma_dist. cbn [Gamma_alpha Gamma_beta ndiv nlit NumR]. f_equal. unfold Rdiv. ring. }
  apply (plane_limit (fun N => pdf (S_gamma_scale (a N) (/ b N))) (fun t => t) (fun N t => / sqrt (nu N * t)) mu nu (fun N => a N / b N)
    (fun N => gamma_var (mkGamma (a N) (b N)) + (a N / b N - / v0) ^ 2) m0 (/ v0)) with (h := h); auto.
  - intros N v _. exact (proj1 (gamma_scale_density (a N) (b N) (a_pos N) (b_pos N)) v).
  - intros N. exact (proj2 (proj2 (gamma_scale_density (a N) (b N) (a_pos N) (b_pos N)))).
  - intros N v Hv. apply Rinv_0_lt_compat, sqrt_lt_R0. now apply Rmult_lt_0_compat.
  - intros N v Hv. specialize (nu_pos N). rewrite pow_inv, pow2_sqrt by (left; now apply Rmult_lt_0_compat). reflexivity.
  - intros N. rewrite G. exact (gamma_mean (a N) (b N) (a_pos N) (b_pos N)).
  - intros N. rewrite G. apply (variance_about _ _ _ ends_pos).
    + exact (proj2 (proj2 (Gamma_density (mkGamma (a N) (b N)) (a_pos N) (b_pos N)))).
    + exact (gamma_mean (a N) (b N) (a_pos N) (b_pos N)).
    + exact (proj1 (gamma_variance (mkGamma (a N) (b N)) (a_pos N) (b_pos N))).
  - exact inv_lim.
  - apply lim_spread; [|exact inv_lim]. unfold gamma_var. cbn [Gamma_alpha Gamma_beta].
    replace 0 with (/ v0 * / v0 * 0) by ring. apply is_lim_seq_ext with (fun N => (a N / b N) * (a N / b N) * / a N).
    + intros N. specialize (a_pos N). specialize (b_pos N). field. lra.
    + apply is_lim_seq_mult'; [apply is_lim_seq_mult'; exact inv_lim|exact a_lim].
Qed.

Lemma nig_growth (h : R -> R -> R) (h0 M : R) :
  (forall m v, 0 < v -> Rabs (h m v) <= M * (1 + (/ v) ^ 2)) ->
  (forall eps, 0 < eps -> exists delta, 0 < delta /\ forall m v, 0 < v -> Rabs (m - m0) < delta -> Rabs (/ v - / v0) < delta -> Rabs (h m v - h0) < eps) ->
  forall eps, 0 < eps -> exists C, 0 <= C /\ forall m v, 0 < v -> Rabs (h m v - h0) <= eps + C * ((/ v - / v0) ^ 2 + / v * (m - m0) ^ 2).
Proof. apply (plane_growth Rinv m0 (/ v0)); [intros v Hv; now apply Rinv_0_lt_compat|now apply Rinv_0_lt_compat]. Qed.

Lemma ng_growth (h : R -> R -> R) (h0 M : R) :
  (forall m v, 0 < v -> Rabs (h m v) <= M * (1 + v ^ 2)) ->
  (forall eps, 0 < eps -> exists delta, 0 < delta /\ forall m v, 0 < v -> Rabs (m - m0) < delta -> Rabs (v - / v0) < delta -> Rabs (h m v - h0) < eps) ->
  forall eps, 0 < eps -> exists C, 0 <= C /\ forall m v, 0 < v -> Rabs (h m v - h0) <= eps + C * ((v - / v0) ^ 2 + v * (m - m0) ^ 2).
Proof. apply (plane_growth (fun t => t) m0 (/ v0)); [auto|now apply Rinv_0_lt_compat]. Qed.

Lemma bounded_growth (h : R -> R -> R) M (w : R -> R) : (forall m v, 0 < v -> Rabs (h m v) <= M) -> forall m v, 0 < v -> Rabs (h m v) <= M * (1 + w v ^ 2).
Proof. intros H m v Hv. specialize (H m v Hv). pose proof (Rabs_pos (h m v)). pose proof (pow2_ge_0 (w v)). nra. Qed.

Lemma nig_concentrates : concentrates2 (fun N => nig_pdf (mu N) (nu N) (a N) (b N)) m0 v0.
Proof.
  intros h M L HM Hc HL. apply (nig_plane h (h m0 v0) L); [|exact HL]. apply (nig_growth h (h m0 v0) M); [now apply bounded_growth|].
  intros eps He. destruct (Hc eps He) as (d & Hd & K). destruct (inv_close v0 d v0_pos Hd) as (d' & Hd' & K').
  exists (Rmin d d'). split; [now apply Rmin_pos|]. intros m v Hv Hm Hw. apply K; [exact Hv| |].
  - eapply Rlt_le_trans; [exact Hm|apply Rmin_l].
  - apply K'; [exact Hv|]. eapply Rlt_le_trans; [exact Hw|apply Rmin_r].
Qed.

Lemma ng_concentrates : concentrates2 (fun N => ng_pdf (mu N) (nu N) (a N) (b N)) m0 (/ v0).
Proof.
  intros h M L HM Hc HL. apply (ng_plane h (h m0 (/ v0)) L); [|exact HL]. apply (ng_growth h (h m0 (/ v0)) M); [now apply (bounded_growth h M (fun t => t))|exact Hc].
Qed.

Lemma nig_predictive_limit y (L : nat -> R) :
  (forall N, marginal2 Fminf Finf Fpos0 Finf positive (nig_pdf (mu N) (nu N) (a N) (b N)) (fun m v => pdf (Normal_dist (mkNormal m (sqrt v))) y) (L N)) ->
  is_lim_seq L (pdf (Normal_dist (mkNormal m0 (sqrt v0))) y).
Proof.
  intros HL. eapply nig_plane; [|exact HL]. apply (nig_growth _ _ (/ sqrt (2 * PI))).
  - intros m v Hv. rewrite by_precision_var by exact Hv. apply by_precision_bound. now apply Rinv_0_lt_compat.
  - intros eps He. destruct (by_precision_cont y m0 (/ v0) (Rinv_0_lt_compat _ v0_pos) eps He) as (d & Hd & K). exists d. split; [exact Hd|].
    intros m v Hv Hm Hw. rewrite !by_precision_var by assumption. now apply K.
Qed.

Lemma ng_predictive_limit y (L : nat -> R) :
  (forall N, marginal2 Fminf Finf Fpos0 Finf positive (ng_pdf (mu N) (nu N) (a N) (b N)) (fun m v => pdf (Normal_dist (mkNormal m (/ sqrt v))) y) (L N)) ->
  is_lim_seq L (pdf (Normal_dist (mkNormal m0 (sqrt v0))) y).
Proof.
  intros HL. eapply ng_plane; [|exact HL]. apply (ng_growth _ _ (/ sqrt (2 * PI))).
  - intros m v Hv. rewrite by_precision_prec by exact Hv. now apply by_precision_bound.
  - intros eps He. destruct (by_precision_cont y m0 (/ v0) (Rinv_0_lt_compat _ v0_pos) eps He) as (d & Hd & K). exists d. split; [exact Hd|].
    intros m v Hv Hm Hw. rewrite by_precision_prec, by_precision_var by assumption. now apply K.
Qed.
End Family.

(** ** the update *)
Section Update.
Context (n x x2 : nat -> R) (m0 v0 mu nu a b : R).
Hypothesis n_pos : forall N, 0 < n N.
Hypothesis n_inf : is_lim_seq n p_infty.
Hypothesis cs : forall N, x N ^ 2 <= n N * x2 N.
Hypothesis mean_lim : is_lim_seq (fun N => x N / n N) m0.
Hypothesis var_lim : is_lim_seq (fun N => x2 N / n N - (x N / n N) ^ 2) v0.
Hypothesis nu_pos : 0 < nu.
Hypothesis a_pos : 0 < a.
Hypothesis b_pos : 0 < b.

Definition mu_n N := (nu * mu + n N * (x N / n N)) / (nu + n N).
Definition b_n N := b + / 2 * ((mu ^ 2 * nu + x2 N) - mu_n N ^ 2 * (nu + n N)).

Lemma mu_n_lim : is_lim_seq mu_n m0.
Proof.
  unfold mu_n. replace m0 with (m0 / 1) by field.
  apply is_lim_seq_ext with (fun N => (nu * mu + x N) / (nu + n N)).
  - intros N. specialize (n_pos N). field. lra.
  - apply ratio_lim with n; auto using self_ratio1; try lra. intros N. specialize (n_pos N). lra.
Qed.

Lemma b_n_form N : b_n N = b + / 2 * ((x2 N - x N ^ 2 / n N) + nu * n N / (nu + n N) * (x N / n N - mu) ^ 2).
Proof. unfold b_n, mu_n. specialize (n_pos N). field. lra. Qed.

Lemma b_n_pos N : 0 < b_n N.
Proof.
  rewrite b_n_form. specialize (n_pos N). specialize (cs N).
  assert (0 <= x2 N - x N ^ 2 / n N).
  { assert (x N ^ 2 / n N <= x2 N); [|lra]. apply (Rmult_le_reg_r (n N)); [exact n_pos|]. unfold Rdiv. rewrite Rmult_assoc, Rinv_l by lra. lra. }
  assert (0 <= nu * n N / (nu + n N) * (x N / n N - mu) ^ 2).
  { apply Rmult_le_pos; [|apply pow2_ge_0]. apply Rmult_le_pos; [nra|]. left. apply Rinv_0_lt_compat. lra. }
  lra.
Qed.

Lemma b_n_lim : is_lim_seq (fun N => b_n N / (a + n N / 2)) v0.
Proof.
  unfold b_n. replace v0 with (/ 2 * v0 / / 2) by field.
  apply ratio_lim with n; auto.
  - apply is_lim_seq_ext with (fun N => / 2 * (mu ^ 2 * nu * / n N + ((x2 N / n N - (x N / n N) ^ 2) + (x N / n N) * (x N / n N)) - mu_n N * mu_n N * (nu * / n N + n N / n N))).
    { intros N. specialize (n_pos N). unfold Rdiv. field. lra. }
    replace (/ 2 * v0) with (/ 2 * (mu ^ 2 * nu * 0 + (v0 + m0 * m0) - m0 * m0 * (nu * 0 + 1))) by ring.
    pose proof (lim_inv_inf n n_inf) as Hi. pose proof mu_n_lim as Hm.
    apply is_lim_seq_mult'; [apply is_lim_seq_const|]. apply is_lim_seq_minus'.
    + apply is_lim_seq_plus'; [apply is_lim_seq_mult'; [apply is_lim_seq_const|exact Hi]|].
      apply is_lim_seq_plus'; [exact var_lim|]. now apply is_lim_seq_mult'.
    + apply is_lim_seq_mult'; [now apply is_lim_seq_mult'|]. apply is_lim_seq_plus'; [apply is_lim_seq_mult'; [apply is_lim_seq_const|exact Hi]|now apply self_ratio1].
  - exact (self_ratio n (/ 2) n_inf).
  - lra.
  - intros N. specialize (n_pos N). lra.
Qed.

Lemma a_n_lim : is_lim_seq (fun N => / (a + n N / 2)) 0.
Proof. apply lim_inv_inf, lim_add_inf, (lim_mult_inf n (/ 2)); [lra|exact n_inf]. Qed.
Lemma nu_n_lim : is_lim_seq (fun N => nu + n N) p_infty.
Proof. now apply lim_add_inf. Qed.
End Update.

Lemma normal_limit {M} (n x x2 : nat -> R) (m0 v0 : R) (prior : NormalPrior R M) :
  (forall N, 0 < n N) -> is_lim_seq n p_infty -> (forall N, x N ^ 2 <= n N * x2 N) ->
  is_lim_seq (fun N => x N / n N) m0 -> is_lim_seq (fun N => x2 N / n N - (x N / n N) ^ 2) v0 -> 0 < v0 -> normal_prior_ok prior ->
  exists (posts : nat -> NormalPrior R M) (preds : nat -> StudentT R),
    (forall N, normal (x N) (x2 N) (n N) prior = Ok (posts N)) /\ (forall N, normal_predictive (posts N) = Ok (preds N)) /\
    concentrates2 (fun N => normal_prior_pdf (posts N)) m0 (match prior with PNIG _ => v0 | PNG _ => / v0 end) /\
    forall y, is_lim_seq (fun N => pdf (StudentT_dist (preds N)) y) (pdf (Normal_dist (mkNormal m0 (sqrt v0))) y).
Proof.
  intros Hn Hi Hcs Hm Hv Hv0 Hok.
  destruct prior as [[mu a b di onu]|[mu nu a b]]; simpl normal_prior_ok in Hok.
  - destruct Hok as (-> & (nu & -> & Hnu) & Ha & Hb).
    set (B := b_n n x x2 mu nu b). set (U := mu_n n x mu nu).
    exists (fun N => PNIG (mkNormalInverseGamma (U N) (a + n N / 2) (B N) None (Some (nu + n N)))).
    eexists. split; [intros N; reflexivity|]. split; [intros N; reflexivity|].
    assert (HB : forall N, 0 < B N) by (intros N; apply b_n_pos; auto).
    assert (HA : forall N, 0 < a + n N / 2) by (intros N; specialize (Hn N); lra).
    assert (HN : forall N, 0 < nu + n N) by (intros N; specialize (Hn N); lra).
    split.
    + apply (nig_concentrates U (fun N => nu + n N) (fun N => a + n N / 2) B m0 v0 HN HA HB Hv0);
        [now apply lim_add_inf|now apply mu_n_lim|now apply a_n_lim|now apply (b_n_lim n x x2 m0 v0 mu nu a b)].
    + intros y. apply (nig_predictive_limit U (fun N => nu + n N) (fun N => a + n N / 2) B m0 v0 HN HA HB Hv0);
        [now apply lim_add_inf|now apply mu_n_lim|now apply a_n_lim|now apply (b_n_lim n x x2 m0 v0 mu nu a b)|].
      intros N. destruct (normal_predictive_marginal (PNIG (M := M) (mkNormalInverseGamma (U N) (a + n N / 2) (B N) None (Some (nu + n N)))) y) as (t & Et & Q).
      { simpl. split; [reflexivity|]. split; [eexists; split; [reflexivity|apply HN]|]. split; [apply HA|apply HB]. }
      unfold normal_predictive in Et. injection Et as Et. rewrite <- Et in Q. exact Q.
  - destruct Hok as (Hnu & Ha & Hb).
    set (B := b_n n x x2 mu nu b). set (U := mu_n n x mu nu).
    exists (fun N => PNG (mkNormalGamma (U N) (nu + n N) (a + n N / 2) (B N))).
    eexists. split; [intros N; reflexivity|]. split; [intros N; reflexivity|].
    assert (HB : forall N, 0 < B N) by (intros N; apply b_n_pos; auto).
    assert (HA : forall N, 0 < a + n N / 2) by (intros N; specialize (Hn N); lra).
    assert (HN : forall N, 0 < nu + n N) by (intros N; specialize (Hn N); lra).
    split.
    + apply (ng_concentrates U (fun N => nu + n N) (fun N => a + n N / 2) B m0 v0 HN HA HB Hv0);
        [now apply lim_add_inf|now apply mu_n_lim|now apply a_n_lim|now apply (b_n_lim n x x2 m0 v0 mu nu a b)].
    + intros y. apply (ng_predictive_limit U (fun N => nu + n N) (fun N => a + n N / 2) B m0 v0 HN HA HB Hv0);
        [now apply lim_add_inf|now apply mu_n_lim|now apply a_n_lim|now apply (b_n_lim n x x2 m0 v0 mu nu a b)|].
      intros N. destruct (normal_predictive_marginal (PNG (M := M) (mkNormalGamma (U N) (nu + n N) (a + n N / 2) (B N))) y) as (t & Et & Q).
      { simpl. split; [apply HN|]. split; [apply HA|apply HB]. }
      unfold normal_predictive in Et. injection Et as Et. rewrite <- Et in Q. exact Q.
Qed.
