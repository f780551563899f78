(** Concentration of posteriors and limits of predictives, as data accumulates. *)

From Coq Require Import Reals Lra Lia Psatz ZArith.
From Coquelicot Require Import Coquelicot.
From Verif Require Import Model.Num Model.Py Model.NdArray Model.Dists Model.ScipyDist Model.Models.
From Verif Require Import Spec.Special Spec.Densities Spec.Bayes Spec.Joint Spec.Moments Spec.Normalised Spec.Limits.
From Verif Require Import Analysis.Improper Analysis.RealAux Analysis.GammaBeta Analysis.GammaFacts Analysis.Concentration.
From Verif Require Import Proofs.Pdfs Proofs.Conj Proofs.Predictive Proofs.Joint Proofs.Convert Proofs.Normalised Proofs.Moments Proofs.Calibration Proofs.Spread.
From Coq Require Import List.
Import ListNotations.
Open Scope R_scope.

(** ** sequences *)
Lemma lim_inv_inf (n : nat -> R) : is_lim_seq n p_infty -> is_lim_seq (fun N => / n N) 0.
Proof. intros H. replace (Finite 0) with (Rbar_inv p_infty) by reflexivity. apply is_lim_seq_inv; auto. discriminate. Qed.

Lemma lim_inf_pos (n : nat -> R) : is_lim_seq n p_infty -> eventually (fun N => 0 < n N).
Proof. intros H. apply is_lim_seq_spec in H. exact (H 0). Qed.

Lemma ratio_lim (n u v : nat -> R) (a b U V : R) : is_lim_seq n p_infty ->
  is_lim_seq (fun N => u N / n N) U -> is_lim_seq (fun N => v N / n N) V -> V <> 0 -> (forall N, 0 < b + v N) ->
  is_lim_seq (fun N => (a + u N) / (b + v N)) (U / V).
Proof.
  intros Hn Hu Hv HV Hp.
  assert (H1 : is_lim_seq (fun N => (a * / n N + u N / n N) / (b * / n N + v N / n N)) ((a * 0 + U) / (b * 0 + V))).
  { pose proof (lim_inv_inf n Hn) as Hi. apply is_lim_seq_div'.
    - apply is_lim_seq_plus'; auto. apply (is_lim_seq_scal_l _ a 0 Hi).
    - apply is_lim_seq_plus'; auto. apply (is_lim_seq_scal_l _ b 0 Hi).
    - lra. }
  replace ((a * 0 + U) / (b * 0 + V)) with (U / V) in H1 by (f_equal; ring).
  apply is_lim_seq_ext_loc with (2 := H1). destruct (lim_inf_pos n Hn) as (N0 & HN0). exists N0. intros N HN. specialize (HN0 N HN). specialize (Hp N).
  field. repeat split; try lra.
Qed.

Lemma self_ratio (n : nat -> R) (c : R) : is_lim_seq n p_infty -> is_lim_seq (fun N => n N * c / n N) c.
Proof.
  intros H. apply is_lim_seq_ext_loc with (fun _ => c); [|apply is_lim_seq_const].
  destruct (lim_inf_pos n H) as (N0 & HN0). exists N0. intros N HN. specialize (HN0 N HN). field. lra.
Qed.

Lemma self_ratio1 (n : nat -> R) : is_lim_seq n p_infty -> is_lim_seq (fun N => n N / n N) 1.
Proof.
  intros H. apply is_lim_seq_ext_loc with (fun _ => 1); [|apply is_lim_seq_const].
  destruct (lim_inf_pos n H) as (N0 & HN0). exists N0. intros N HN. specialize (HN0 N HN). field. lra.
Qed.

Lemma lim_add_inf (n : nat -> R) c : is_lim_seq n p_infty -> is_lim_seq (fun N => c + n N) p_infty.
Proof.
  intros H. apply is_lim_seq_plus with c p_infty; [apply is_lim_seq_const|exact H|reflexivity].
Qed.

Lemma lim_mult_inf (n : nat -> R) c : 0 < c -> is_lim_seq n p_infty -> is_lim_seq (fun N => n N * c) p_infty.
Proof.
  intros Hc H. apply is_lim_seq_mult with p_infty c; [exact H|apply is_lim_seq_const|].
  apply is_Rbar_mult_p_infty_pos. exact Hc.
Qed.

Lemma lim_ge_inf (n m : nat -> R) : is_lim_seq n p_infty -> (forall N, n N <= m N) -> is_lim_seq m p_infty.
Proof. intros H L. apply (is_lim_seq_le_p_loc n m); auto. now apply filter_forall. Qed.

(** ** second moment about a point *)
Lemma variance_about I Fa Fb (E : Ends I Fa Fb) (f : R -> R) (m v c : R) :
  is_RInt_gen f Fa Fb 1 -> is_mean Fa Fb f m -> is_variance Fa Fb f v ->
  is_RInt_gen (fun t => (t - c) ^ 2 * f t) Fa Fb (v + (m - c) ^ 2).
Proof.
  intros H0 H1 (m' & H1' & H2). pose proof (e_Fa _ _ _ E) as PA. pose proof (e_Fb _ _ _ E) as PB.
  pose proof (is_RInt_gen_unique_on _ _ _ E _ _ _ H1 H1'). subst m'.
  pose proof (is_RInt_gen_plus_R Fa Fb _ _ _ _ H2 (is_RInt_gen_plus_R Fa Fb _ _ _ _ (is_RInt_gen_mult_l Fa Fb _ (2 * (m - c)) _ H1)
     (is_RInt_gen_mult_l Fa Fb _ (c ^ 2 - m ^ 2) _ H0))) as Q.
  replace (v + (m - c) ^ 2) with (v + (2 * (m - c) * m + (c ^ 2 - m ^ 2) * 1)) by ring.
  revert Q. apply (is_RInt_gen_ext_on _ _ _ E). intros t _. ring.
Qed.

Lemma lim_spread (v m : nat -> R) (c : R) : is_lim_seq v 0 -> is_lim_seq m c -> is_lim_seq (fun N => v N + (m N - c) ^ 2) 0.
Proof.
  intros Hv Hm. replace 0 with (0 + (c - c) * (c - c)) by ring.
  apply is_lim_seq_ext with (fun N => v N + (m N - c) * (m N - c)); [intros N; ring|].
  apply is_lim_seq_plus'; [exact Hv|]. apply is_lim_seq_mult'; apply is_lim_seq_minus'; auto using is_lim_seq_const.
Qed.

(** ** families *)
Lemma beta_concentrates (a b : nat -> R) (p : R) : (forall N, 0 < a N) -> (forall N, 0 < b N) ->
  is_lim_seq (fun N => a N + b N) p_infty -> is_lim_seq (fun N => a N / (a N + b N)) p ->
  concentrates Fpos0 Fone unit_interval (fun N => pdf (S_beta (a N) (b N))) p.
Proof.
  intros Ha Hb Hs Hp. 
  apply (concentrates_intro _ _ _ E01 _ _ (fun N => beta_var (mkBeta (a N) (b N)) + (a N / (a N + b N) - p) ^ 2)).
  - intros N t _. exact (proj1 (Beta_density (mkBeta (a N) (b N)) (Ha N) (Hb N)) t).
  - intros N. exact (proj2 (proj2 (Beta_density (mkBeta (a N) (b N)) (Ha N) (Hb N)))).
  - intros N. apply (variance_about _ _ _ E01).
    + exact (proj2 (proj2 (Beta_density (mkBeta (a N) (b N)) (Ha N) (Hb N)))).
    + now apply beta_mean.
    + exact (proj1 (beta_variance (mkBeta (a N) (b N)) (Ha N) (Hb N))).
  - apply lim_spread; [|exact Hp].
    apply is_lim_seq_le_le with (fun _ => 0) (fun N => / (a N + b N)).
    + intros N. specialize (Ha N). specialize (Hb N). split; [left; exact (proj2 (beta_variance (mkBeta (a N) (b N)) Ha Hb))|].
      unfold beta_var. cbn [Beta_alpha Beta_beta]. set (x := a N) in *. set (y := b N) in *.
      assert (P : 0 < (x + y) ^ 2 * (x + y + 1)) by (apply Rmult_lt_0_compat; [apply pow_lt|]; lra).
      apply (Rmult_le_reg_r ((x + y) ^ 2 * (x + y + 1))); [exact P|].
      unfold Rdiv. rewrite Rmult_assoc, Rinv_l, Rmult_1_r by lra.
      replace (/ (x + y) * ((x + y) ^ 2 * (x + y + 1))) with ((x + y) * (x + y + 1)) by (field; lra). nra.
    + apply is_lim_seq_const.
    + now apply lim_inv_inf.
Qed.

Lemma gamma_concentrates (a b : nat -> R) (l : R) : (forall N, 0 < a N) -> (forall N, 0 < b N) ->
  is_lim_seq (fun N => a N / b N) l -> is_lim_seq (fun N => / a N) 0 \/ is_lim_seq (fun N => / b N) 0 ->
  concentrates Fpos0 Finf positive (fun N => pdf (S_gamma_scale (a N) (1 / b N))) l.
Proof.
  intros Ha Hb Hl Hi.
  apply (concentrates_intro _ _ _ ends_pos _ _ (fun N => gamma_var (mkGamma (a N) (b N)) + (a N / b N - l) ^ 2)).
  - intros N t _. exact (proj1 (Gamma_density (mkGamma (a N) (b N)) (Ha N) (Hb N)) t).
  - intros N. exact (proj2 (proj2 (Gamma_density (mkGamma (a N) (b N)) (Ha N) (Hb N)))).
  - intros N. apply (variance_about _ _ _ ends_pos).
    + exact (proj2 (proj2 (Gamma_density (mkGamma (a N) (b N)) (Ha N) (Hb N)))).
    + now apply gamma_mean.
    + exact (proj1 (gamma_variance (mkGamma (a N) (b N)) (Ha N) (Hb N))).
  - apply lim_spread; [|exact Hl]. unfold gamma_var. cbn [Gamma_alpha Gamma_beta]. destruct Hi as [Hi|Hi].
    + replace 0 with (l * l * 0) by ring. apply is_lim_seq_ext with (fun N => (a N / b N) * (a N / b N) * / a N).
      * intros N. specialize (Ha N). specialize (Hb N). field. lra.
      * apply is_lim_seq_mult'; [apply is_lim_seq_mult'|]; assumption.
    + replace 0 with (l * 0) by ring. apply is_lim_seq_ext with (fun N => (a N / b N) * / b N).
      * intros N. specialize (Hb N). field. lra.
      * apply is_lim_seq_mult'; assumption.
Qed.

Lemma norm_concentrates (m s : nat -> R) (l : R) : (forall N, 0 < s N) ->
  is_lim_seq m l -> is_lim_seq (fun N => s N ^ 2) 0 ->
  concentrates Fminf Finf any_real (fun N => pdf (S_norm (m N) (s N))) l.
Proof.
  intros Hs Hm H0. apply (concentrates_intro _ _ _ ends_line _ _ (fun N => s N ^ 2 + (m N - l) ^ 2)).
  - intros N t _. exact (proj1 (Normal_density (mkNormal (m N) (s N)) (Hs N)) t).
  - intros N. exact (proj2 (proj2 (Normal_density (mkNormal (m N) (s N)) (Hs N)))).
  - intros N. apply (variance_about _ _ _ ends_line).
    + exact (proj2 (proj2 (Normal_density (mkNormal (m N) (s N)) (Hs N)))).
    + now apply norm_mean.
    + now apply norm_variance.
  - now apply lim_spread.
Qed.

(** The spread of 1/v under an inverse gamma. *)
Lemma invgamma_shift_inv a b t : 0 < a -> 0 < b -> 0 < t ->
  / t * pdf (S_invgamma_scale a b) t = a / b * pdf (S_invgamma_scale (a + 1) b) t.
Proof.
  intros Ha Hb Ht. pose proof (invgamma_shift (a + 1) b t ltac:(lra) Hb) as E. replace (a + 1 - 1) with a in E by ring.
  apply (Rmult_eq_reg_l (t * (b / a))); [|apply Rgt_not_eq, Rmult_lt_0_compat; [lra|apply Rdiv_lt_0_compat; lra]].
  transitivity (b / a * pdf (S_invgamma_scale a b) t); [field; lra|]. rewrite <- E. field. lra.
Qed.

Lemma invgamma_spread a b c : 0 < a -> 0 < b ->
  is_RInt_gen (fun t => (/ t - c) ^ 2 * pdf (S_invgamma_scale a b) t) Fpos0 Finf (a / b ^ 2 + (a / b - c) ^ 2).
Proof.
  intros Ha Hb. replace (a / b ^ 2 + (a / b - c) ^ 2) with (a / b * ((a + 1) / b) - 2 * c * (a / b) + c ^ 2) by (field; lra).
  apply (spread_about _ _ _ ends_pos).
  - exact (proj2 (proj2 (invgamma_density a b Ha Hb))).
  - pose proof (is_RInt_gen_mult_l Fpos0 Finf _ (a / b) _ (proj2 (proj2 (invgamma_density (a + 1) b ltac:(lra) Hb)))) as Q.
    rewrite Rmult_1_r in Q. revert Q. apply (is_RInt_gen_ext_on _ _ _ ends_pos). intros t Ht. now rewrite invgamma_shift_inv.
  - pose proof (is_RInt_gen_mult_l Fpos0 Finf _ (a / b * ((a + 1) / b)) _ (proj2 (proj2 (invgamma_density (a + 1 + 1) b ltac:(lra) Hb)))) as Q.
    rewrite Rmult_1_r in Q. revert Q. apply (is_RInt_gen_ext_on _ _ _ ends_pos). intros t Ht.
    replace ((/ t) ^ 2 * pdf (S_invgamma_scale a b) t) with (/ t * (/ t * pdf (S_invgamma_scale a b) t)) by ring.
    rewrite invgamma_shift_inv by lra.
    replace (/ t * (a / b * pdf (S_invgamma_scale (a + 1) b) t)) with (a / b * (/ t * pdf (S_invgamma_scale (a + 1) b) t)) by ring.
    rewrite invgamma_shift_inv by lra. ring.
Qed.

Lemma invgamma_spread_lim (a b : nat -> R) (v : R) : 0 < v -> (forall N, 0 < a N) -> (forall N, 0 < b N) ->
  is_lim_seq (fun N => / a N) 0 -> is_lim_seq (fun N => b N / a N) v ->
  is_lim_seq (fun N => a N / b N ^ 2 + (a N / b N - / v) ^ 2) 0.
Proof.
  intros Hv Ha Hb Hi Hl.
  assert (Hr : is_lim_seq (fun N => a N / b N) (/ v)).
  { apply is_lim_seq_ext with (fun N => / (b N / a N)).
    - intros N. specialize (Ha N). specialize (Hb N). field. lra.
    - replace (Finite (/ v)) with (Rbar_inv v) by reflexivity. apply is_lim_seq_inv; [exact Hl|]. intros Q. injection Q. lra. }
  apply lim_spread; [|exact Hr].
  replace 0 with (/ v * / v * 0) by ring. apply is_lim_seq_ext with (fun N => (a N / b N) * (a N / b N) * / a N).
  - intros N. specialize (Ha N). specialize (Hb N). field. lra.
  - apply is_lim_seq_mult'; [apply is_lim_seq_mult'|]; assumption.
Qed.

Lemma invgamma_concentrates (a b : nat -> R) (v : R) : 0 < v -> (forall N, 0 < a N) -> (forall N, 0 < b N) ->
  is_lim_seq (fun N => / a N) 0 -> is_lim_seq (fun N => b N / a N) v ->
  concentrates Fpos0 Finf positive (fun N => pdf (S_invgamma_scale (a N) (b N))) v.
Proof.
  intros Hv Ha Hb Hi Hl. apply (concentrates_inv_intro _ _ (fun N => a N / b N ^ 2 + (a N / b N - / v) ^ 2)); [exact Hv| | | |].
  - intros N t _. exact (proj1 (invgamma_density (a N) (b N) (Ha N) (Hb N)) t).
  - intros N. exact (proj2 (proj2 (invgamma_density (a N) (b N) (Ha N) (Hb N)))).
  - intros N. now apply invgamma_spread.
  - now apply invgamma_spread_lim.
Qed.

(** Pareto, over the whole half line. *)
Lemma pareto_total a s : 0 < a -> 0 < s -> is_RInt_gen (pdf (S_pareto_scale a s)) Fpos0 Finf 1.
Proof.
  intros Ha Hs. pose proof (ends_left _ _ _ ends_pos s Hs) as EL. pose proof (ends_right _ _ _ ends_pos s Hs) as ER.
  replace 1 with (plus 0 1) by (unfold plus; simpl; ring).
  apply (is_RInt_gen_Chasles (V:=R_CompleteNormedModule)) with s.
  - apply (is_RInt_gen_ext (V:=R_NormedModule) (fun _ => 0)).
    + apply Filter_prod with (fun x => 0 < x /\ x <= s) (fun x => x = s).
      apply (e_inA _ _ _ EL). reflexivity. intros y z [Hy1 Hy2] -> t Ht. simpl in Ht.
      rewrite Rmax_right in Ht by auto. now rewrite pareto_pdf_out by lra.
    + replace 0 with (0 - 0) at 2 by ring.
      apply (is_RInt_gen_FTC _ _ _ EL (fun _ => 0)).
      * intros y _. apply (is_derive_const (V:=R_NormedModule) 0).
      * intros y _. apply continuous_const.
      * apply filterlim_const.
      * apply filterlim_const.
  - apply (is_RInt_gen_ext (V:=R_NormedModule) (fun t => a * Rpower s a * Rpower t (- a - 1))).
    + apply Filter_prod with (fun x => x = s) (fun x => s < x).
      reflexivity. exists s; auto. intros y z -> Hz t Ht. simpl in Ht.
      rewrite Rmin_left in Ht by lra. rewrite pareto_pdf by lra. replace (- a - 1) with (- (a + 1)) by ring. now rewrite Rpower_Ropp.
    + pose proof (Rpower_pos s a).
      pose proof (is_RInt_gen_mult_l (at_point s) Finf _ (a * Rpower s a) _ (is_RInt_gen_power_inf a s Ha Hs)) as Q.
      replace (a * Rpower s a * (Rpower s (- a) / a)) with 1 in Q by (rewrite Rpower_Ropp; field; lra). exact Q.
Qed.

Lemma pareto_shift_inv a s t : 0 < a -> 0 < s -> 0 < t ->
  / t * pdf (S_pareto_scale a s) t = a / ((a + 1) * s) * pdf (S_pareto_scale (a + 1) s) t.
Proof.
  intros Ha Hs Ht. destruct (Rle_dec s t) as [H|H].
  - rewrite !pareto_pdf by assumption. rewrite (Rpower_succ s a), (Rpower_succ t (a + 1)) by assumption.
    pose proof (Rpower_pos t (a + 1)). field. lra.
  - rewrite !pareto_pdf_out by lra. ring.
Qed.

Lemma pareto_spread a s c : 0 < a -> 0 < s ->
  is_RInt_gen (fun t => (/ t - c) ^ 2 * pdf (S_pareto_scale a s) t) Fpos0 Finf
    (a / ((a + 1) ^ 2 * (a + 2) * s ^ 2) + (a / ((a + 1) * s) - c) ^ 2).
Proof.
  intros Ha Hs.
  replace (a / ((a + 1) ^ 2 * (a + 2) * s ^ 2) + (a / ((a + 1) * s) - c) ^ 2)
    with (a / ((a + 1) * s) * ((a + 1) / ((a + 1 + 1) * s)) - 2 * c * (a / ((a + 1) * s)) + c ^ 2) by (field; lra).
  apply (spread_about _ _ _ ends_pos).
  - now apply pareto_total.
  - pose proof (is_RInt_gen_mult_l Fpos0 Finf _ (a / ((a + 1) * s)) _ (pareto_total (a + 1) s ltac:(lra) Hs)) as Q.
    rewrite Rmult_1_r in Q. revert Q. apply (is_RInt_gen_ext_on _ _ _ ends_pos). intros t Ht. now rewrite pareto_shift_inv.
  - pose proof (is_RInt_gen_mult_l Fpos0 Finf _ (a / ((a + 1) * s) * ((a + 1) / ((a + 1 + 1) * s))) _ (pareto_total (a + 1 + 1) s ltac:(lra) Hs)) as Q.
    rewrite Rmult_1_r in Q. revert Q. apply (is_RInt_gen_ext_on _ _ _ ends_pos). intros t Ht.
    replace ((/ t) ^ 2 * pdf (S_pareto_scale a s) t) with (/ t * (/ t * pdf (S_pareto_scale a s) t)) by ring.
    rewrite pareto_shift_inv by lra.
    replace (/ t * (a / ((a + 1) * s) * pdf (S_pareto_scale (a + 1) s) t)) with (a / ((a + 1) * s) * (/ t * pdf (S_pareto_scale (a + 1) s) t)) by ring.
    rewrite pareto_shift_inv by lra. ring.
Qed.

Lemma pareto_concentrates (a s : nat -> R) (l : R) : 0 < l -> (forall N, 0 < a N) -> (forall N, 0 < s N) ->
  is_lim_seq (fun N => / a N) 0 -> is_lim_seq s l ->
  concentrates Fpos0 Finf positive (fun N => pdf (S_pareto_scale (a N) (s N))) l.
Proof.
  intros Hv Ha Hs Hi Hl.
  apply (concentrates_inv_intro _ _ (fun N => a N / ((a N + 1) ^ 2 * (a N + 2) * s N ^ 2) + (a N / ((a N + 1) * s N) - / l) ^ 2)); [exact Hv| | | |].
  - intros N t _. exact (proj1 (Pareto_density (mkPareto (s N) (a N)) (Hs N) (Ha N)) t).
  - intros N. now apply pareto_total.
  - intros N. now apply pareto_spread.
  - assert (Hsi : is_lim_seq (fun N => / s N) (/ l)).
    { replace (Finite (/ l)) with (Rbar_inv l) by reflexivity. apply is_lim_seq_inv; [exact Hl|]. intros Q. injection Q. lra. }
    assert (H1 : is_lim_seq (fun N => / (1 + / a N)) (/ (1 + 0))).
    { replace (Finite (/ (1 + 0))) with (Rbar_inv (1 + 0)) by reflexivity. apply is_lim_seq_inv.
      - apply is_lim_seq_plus'; [apply is_lim_seq_const|exact Hi].
      - intros Q. injection Q. lra. }
    assert (H2 : is_lim_seq (fun N => / (1 + 2 * / a N)) (/ (1 + 2 * 0))).
    { replace (Finite (/ (1 + 2 * 0))) with (Rbar_inv (1 + 2 * 0)) by reflexivity. apply is_lim_seq_inv.
      - apply is_lim_seq_plus'; [apply is_lim_seq_const|]. apply is_lim_seq_mult'; [apply is_lim_seq_const|exact Hi].
      - intros Q. injection Q. lra. }
    apply lim_spread.
    + replace 0 with (0 * 0 * (/ (1 + 0) * / (1 + 0)) * / (1 + 2 * 0) * (/ l * / l)) by ring.
      apply is_lim_seq_ext with (fun N => / a N * / a N * (/ (1 + / a N) * / (1 + / a N)) * / (1 + 2 * / a N) * (/ s N * / s N)).
      * intros N. specialize (Ha N). specialize (Hs N). field. repeat split; lra.
      * repeat apply is_lim_seq_mult'; assumption.
    + replace (/ l) with (/ (1 + 0) * / l) by (field; lra).
      apply is_lim_seq_ext with (fun N => / (1 + / a N) * / s N).
      * intros N. specialize (Ha N). specialize (Hs N). field. repeat split; lra.
      * apply is_lim_seq_mult'; assumption.
Qed.
