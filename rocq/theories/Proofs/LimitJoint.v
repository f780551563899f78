(** Concentration of the joint posterior of a mean and a variance (or precision). *)

From Coq Require Import Reals Lra Lia Psatz ZArith.
From Coquelicot Require Import Coquelicot.
From Verif Require Import Model.Num Model.Py Model.NdArray Model.Dists Model.ScipyDist Model.Models.
From Verif Require Import Spec.Special Spec.Densities Spec.Bayes Spec.Joint Spec.Moments Spec.Normalised Spec.Limits.
From Verif Require Import Analysis.Improper Analysis.RealAux Analysis.GammaBeta Analysis.GammaFacts Analysis.Concentration.
From Verif Require Import Proofs.Pdfs Proofs.Conj Proofs.Predictive Proofs.Joint Proofs.Convert Proofs.Normalised Proofs.Moments Proofs.Calibration Proofs.Spread
  Proofs.Limits Proofs.LimitModels Proofs.LimitPredictive.
From Coq Require Import List.
Import ListNotations.
Open Scope R_scope.

Section Plane.
(** [v] has density [g N]; given [v], [m] is normal about [mu N] with precision [nu N * w v]. *)
Context (g : nat -> R -> R) (w : R -> R) (sd : nat -> R -> R) (mu nu e S : nat -> R) (m0 w0 : R).
Hypothesis g_pos : forall N v, 0 < v -> 0 <= g N v.
Hypothesis g_one : forall N, is_RInt_gen (g N) Fpos0 Finf 1.
Hypothesis w_pos : forall v, 0 < v -> 0 < w v.
Hypothesis nu_pos : forall N, 0 < nu N.
Hypothesis sd_pos : forall N v, 0 < v -> 0 < sd N v.
Hypothesis sd_sq : forall N v, 0 < v -> sd N v ^ 2 = / (nu N * w v).
Hypothesis w_mean : forall N, is_RInt_gen (fun v => w v * g N v) Fpos0 Finf (e N).
Hypothesis w_spread : forall N, is_RInt_gen (fun v => (w v - w0) ^ 2 * g N v) Fpos0 Finf (S N).
Hypothesis w0_pos : 0 < w0.
Hypothesis e_lim : is_lim_seq e w0.
Hypothesis S_lim : is_lim_seq S 0.
Hypothesis nu_lim : is_lim_seq nu p_infty.
Hypothesis mu_lim : is_lim_seq mu m0.

Definition dens N m v := g N v * pdf (S_norm (mu N) (sd N v)) m.

Lemma inner_quadratic N v C D : 0 < v ->
  is_RInt_gen (fun m => (D + C * (w v * (m - m0) ^ 2)) * dens N m v) Fminf Finf (g N v * (D + C * (/ nu N + w v * (mu N - m0) ^ 2))).
Proof.
  intros Hv. specialize (sd_pos N v Hv). assert (H1 : is_RInt_gen (pdf (S_norm (mu N) (sd N v))) Fminf Finf 1) by exact (proj2 (proj2 (Normal_density (mkNormal (mu N) (sd N v)) sd_pos))).
  pose proof (variance_about _ _ _ ends_line _ _ _ m0 H1 (norm_mean (mu N) _ sd_pos) (norm_variance (mu N) _ sd_pos)) as H2.
  pose proof (is_RInt_gen_plus_R Fminf Finf _ _ _ _ (is_RInt_gen_mult_l Fminf Finf _ (g N v * D) _ H1) (is_RInt_gen_mult_l Fminf Finf _ (g N v * (C * w v)) _ H2)) as Q.
  rewrite sd_sq in Q by exact Hv. specialize (w_pos v Hv). specialize (nu_pos N).
  replace (g N v * (D + C * (/ nu N + w v * (mu N - m0) ^ 2))) with (g N v * D * 1 + g N v * (C * w v) * (/ (nu N * w v) + (mu N - m0) ^ 2)) by (field; lra).
  revert Q. apply (is_RInt_gen_ext_on _ _ _ ends_line). intros m _. unfold dens. ring.
Qed.

Lemma plane_limit (h : R -> R -> R) (h0 : R) (L : nat -> R) :
  (forall eps, 0 < eps -> exists C, 0 <= C /\ forall m v, 0 < v -> Rabs (h m v - h0) <= eps + C * ((w v - w0) ^ 2 + w v * (m - m0) ^ 2)) ->
  (forall N, marginal2 Fminf Finf Fpos0 Finf positive (dens N) h (L N)) -> is_lim_seq L h0.
Proof.
  intros Hh HL.
  set (B := fun N => S N + / nu N + (mu N - m0) ^ 2 * e N).
  assert (HB : is_lim_seq B 0).
  { unfold B. replace 0 with (0 + 0 + (m0 - m0) * (m0 - m0) * w0) by ring.
    apply is_lim_seq_ext with (fun N => S N + / nu N + (mu N - m0) * (mu N - m0) * e N); [intros N; ring|].
    apply is_lim_seq_plus'; [apply is_lim_seq_plus'; [exact S_lim|now apply lim_inv_inf]|].
    apply is_lim_seq_mult'; [apply is_lim_seq_mult'; apply is_lim_seq_minus'; auto using is_lim_seq_const|exact e_lim]. }
  assert (HO : forall N C eps, is_RInt_gen (fun v => g N v * (eps + C * (w v - w0) ^ 2 + C * (/ nu N + w v * (mu N - m0) ^ 2))) Fpos0 Finf (eps + C * B N)).
  { intros N C eps.
    pose proof (is_RInt_gen_plus_R Fpos0 Finf _ _ _ _ (is_RInt_gen_mult_l Fpos0 Finf _ (eps + C * / nu N) _ (g_one N))
      (is_RInt_gen_plus_R Fpos0 Finf _ _ _ _ (is_RInt_gen_mult_l Fpos0 Finf _ C _ (w_spread N)) (is_RInt_gen_mult_l Fpos0 Finf _ (C * (mu N - m0) ^ 2) _ (w_mean N)))) as Q.
    replace (eps + C * B N) with ((eps + C * / nu N) * 1 + (C * S N + C * (mu N - m0) ^ 2 * e N)) by (unfold B; ring).
    revert Q. apply (is_RInt_gen_ext_on _ _ _ ends_pos). intros v _. ring. }
  assert (Hb : forall N C eps, 0 <= C -> (forall m v, 0 < v -> Rabs (h m v - h0) <= eps + C * ((w v - w0) ^ 2 + w v * (m - m0) ^ 2)) ->
     Rabs (L N - h0) <= eps + C * B N).
  { intros N C eps HC HB'. destruct (HL N) as (inner & Hi & Ho).
    assert (K : forall v, 0 < v -> Rabs (inner v - h0 * g N v) <= g N v * (eps + C * (w v - w0) ^ 2 + C * (/ nu N + w v * (mu N - m0) ^ 2))).
    { intros v Hv. pose proof (inner_quadratic N v C (eps + C * (w v - w0) ^ 2) Hv) as QU.
      pose proof (inner_quadratic N v 0 h0 Hv) as Q0.
      pose proof (is_RInt_gen_minus_R Fminf Finf _ _ _ _ (Hi v Hv) Q0) as QD.
      replace (inner v - g N v * (h0 + 0 * (/ nu N + w v * (mu N - m0) ^ 2))) with (inner v - h0 * g N v) in QD by ring.
      assert (dn : forall m, 0 <= dens N m v).
      { intros m. unfold dens. apply Rmult_le_pos; [now apply g_pos|]. exact (proj1 (Normal_density (mkNormal (mu N) (sd N v)) (sd_pos N v Hv)) m). }
      apply Rabs_le. split.
      - assert (- 1 * (inner v - h0 * g N v) <= g N v * (eps + C * (w v - w0) ^ 2 + C * (/ nu N + w v * (mu N - m0) ^ 2))); [|lra].
        apply (is_RInt_gen_le_on _ _ _ ends_line _ _ _ _) with (2 := is_RInt_gen_mult_l Fminf Finf _ (- 1) _ QD) (3 := QU).
        intros m _. specialize (HB' m v Hv). specialize (dn m). apply Rabs_le_between in HB'. nra.
      - apply (is_RInt_gen_le_on _ _ _ ends_line _ _ _ _) with (2 := QD) (3 := QU).
        intros m _. specialize (HB' m v Hv). specialize (dn m). apply Rabs_le_between in HB'. nra. }
    pose proof (is_RInt_gen_minus_R Fpos0 Finf _ _ _ _ Ho (is_RInt_gen_mult_l Fpos0 Finf _ h0 _ (g_one N))) as QD. rewrite Rmult_1_r in QD.
    apply Rabs_le. split.
    - assert (- 1 * (L N - h0) <= eps + C * B N); [|lra].
      apply (is_RInt_gen_le_on _ _ _ ends_pos _ _ _ _) with (2 := is_RInt_gen_mult_l Fpos0 Finf _ (- 1) _ QD) (3 := HO N C eps).
      intros v Hv. specialize (K v Hv). apply Rabs_le_between in K. lra.
    - apply (is_RInt_gen_le_on _ _ _ ends_pos _ _ _ _) with (2 := QD) (3 := HO N C eps).
      intros v Hv. specialize (K v Hv). apply Rabs_le_between in K. lra. }
  apply is_lim_seq_spec. intros eps. destruct (Hh (eps / 2)) as (C & HC & HB'); [destruct eps; simpl; lra|].
  apply is_lim_seq_spec in HB. assert (Hd : 0 < eps / 2 / (C + 1)) by (apply Rdiv_lt_0_compat; destruct eps; simpl; lra).
  destruct (HB (mkposreal _ Hd)) as (N0 & HN0). simpl in HN0. exists N0. intros N HN. specialize (HN0 N HN). rewrite Rminus_0_r in HN0.
  specialize (Hb N C (eps / 2) HC HB'). eapply Rle_lt_trans; [exact Hb|].
  apply Rabs_def2 in HN0. destruct HN0 as (HN0 & HN1). assert (0 < C + 1) by lra.
  assert (C * B N < eps / 2).
  { destruct (Rle_dec (B N) 0) as [Z|Z]; [destruct eps as [ep Hep]; simpl in *; nra|].
    apply Rle_lt_trans with ((C + 1) * B N); [nra|]. apply (Rmult_lt_compat_l (C + 1)) in HN0; [|lra].
    replace ((C + 1) * (eps / 2 / (C + 1))) with (eps / 2) in HN0 by (field; lra). exact HN0. }
  lra.
Qed.

Lemma plane_growth (h : R -> R -> R) (h0 M : R) :
  (forall m v, 0 < v -> Rabs (h m v) <= M * (1 + w v ^ 2)) ->
  (forall eps, 0 < eps -> exists delta, 0 < delta /\ forall m v, 0 < v -> Rabs (m - m0) < delta -> Rabs (w v - w0) < delta -> Rabs (h m v - h0) < eps) ->
  forall eps, 0 < eps -> exists C, 0 <= C /\ forall m v, 0 < v -> Rabs (h m v - h0) <= eps + C * ((w v - w0) ^ 2 + w v * (m - m0) ^ 2).
Proof.
  intros HM Hc eps He. destruct (Hc eps He) as (d0 & Hd0 & Hn).
  assert (M0 : 0 <= M).
  { specialize (HM 0 1 Rlt_0_1). pose proof (Rabs_pos (h 0 1)). pose proof (pow2_ge_0 (w 1)). destruct (Rle_or_lt 0 M); auto. exfalso. nra. }
  set (d := Rmin d0 (w0 / 2)). assert (Hd : 0 < d) by (apply Rmin_pos; lra).
  assert (Dd : d <= d0) by apply Rmin_l. assert (Dw : d <= w0 / 2) by apply Rmin_r.
  set (A := M * (1 + 2 * w0 ^ 2) + Rabs h0). set (A' := M * (1 + (2 * w0) ^ 2) + Rabs h0).
  assert (HA : 0 <= A) by (unfold A; pose proof (Rabs_pos h0); pose proof (pow2_ge_0 w0); nra).
  assert (HA' : 0 <= A') by (unfold A'; pose proof (Rabs_pos h0); pose proof (pow2_ge_0 (2 * w0)); nra).
  assert (d2 : 0 < d ^ 2) by now apply pow_lt.
  assert (P1 : 0 <= A / d ^ 2) by (apply Rmult_le_pos; [exact HA|left; now apply Rinv_0_lt_compat]).
  assert (Hq : 0 < w0 / 2 * d ^ 2) by nra.
  assert (P2 : 0 <= A' / (w0 / 2 * d ^ 2)) by (apply Rmult_le_pos; [exact HA'|left; now apply Rinv_0_lt_compat]).
  exists (A / d ^ 2 + 2 * M + A' / (w0 / 2 * d ^ 2)). split; [lra|].
  intros m v Hv. specialize (w_pos v Hv). specialize (HM m v Hv). set (W := w v) in *. pose proof (pow2_ge_0 (W - w0)) as PW. pose proof (pow2_ge_0 (m - m0)) as Pm.
  assert (T : Rabs (h m v - h0) <= M * (1 + W ^ 2) + Rabs h0).
  { pose proof (Rabs_triang (h m v) (- h0)) as T. rewrite Rabs_Ropp in T. fold (h m v - h0) in T. lra. }
  assert (PQ : 0 <= W * (m - m0) ^ 2) by nra.
  destruct (Rlt_dec (Rabs (W - w0)) d) as [Hl|Hl].
  - assert (W1 : w0 / 2 < W < 2 * w0) by (apply Rabs_def2 in Hl; lra).
    destruct (Rlt_dec (Rabs (m - m0)) d) as [Hm|Hm].
    + specialize (Hn m v Hv ltac:(lra) ltac:(fold W; lra)).
      assert (0 <= (A / d ^ 2 + 2 * M + A' / (w0 / 2 * d ^ 2)) * ((W - w0) ^ 2 + W * (m - m0) ^ 2)) by (apply Rmult_le_pos; lra). lra.
    + apply Rnot_lt_le in Hm. assert (Hu : d ^ 2 <= (m - m0) ^ 2) by (rewrite <- (pow2_abs (m - m0)); apply pow_incr; lra).
      assert (K : A' <= A' / (w0 / 2 * d ^ 2) * (W * (m - m0) ^ 2)).
      { replace A' with (A' / (w0 / 2 * d ^ 2) * (w0 / 2 * d ^ 2)) at 1 by (field; lra). apply Rmult_le_compat_l; [exact P2|]. 
        apply Rmult_le_compat; lra. }
      assert (M * (1 + W ^ 2) <= M * (1 + (2 * w0) ^ 2)) by (apply Rmult_le_compat_l; [exact M0|]; apply Rplus_le_compat_l; apply pow_incr; lra).
      assert (0 <= (A / d ^ 2 + 2 * M) * ((W - w0) ^ 2 + W * (m - m0) ^ 2)) by (apply Rmult_le_pos; lra).
      assert (0 <= A' / (w0 / 2 * d ^ 2) * (W - w0) ^ 2) by (apply Rmult_le_pos; lra).
      unfold A' in *. lra.
  - apply Rnot_lt_le in Hl. assert (Hu : d ^ 2 <= (W - w0) ^ 2) by (rewrite <- (pow2_abs (W - w0)); apply pow_incr; lra).
    assert (K : A <= A / d ^ 2 * (W - w0) ^ 2).
    { replace A with (A / d ^ 2 * d ^ 2) at 1 by (field; lra). now apply Rmult_le_compat_l. }
    assert (P : W ^ 2 <= 2 * w0 ^ 2 + 2 * (W - w0) ^ 2) by (pose proof (pow2_ge_0 (W - 2 * w0)); nra).
    assert (M * (1 + W ^ 2) <= M * (1 + (2 * w0 ^ 2 + 2 * (W - w0) ^ 2))) by (apply Rmult_le_compat_l; lra).
    assert (0 <= (A / d ^ 2 + 2 * M + A' / (w0 / 2 * d ^ 2)) * (W * (m - m0) ^ 2)) by (apply Rmult_le_pos; lra).
    assert (0 <= A' / (w0 / 2 * d ^ 2) * (W - w0) ^ 2) by (apply Rmult_le_pos; lra).
    unfold A in *. lra.
Qed.
End Plane.
