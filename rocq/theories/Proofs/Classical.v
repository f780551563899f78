(** Marginals of the joint laws of [normal], and the posterior of the flat prior. *)

From Coq Require Import Reals Lra Psatz ZArith Lia.
From Coquelicot Require Import Coquelicot.
From Verif Require Import Model.Num Model.Py Model.Dists Model.ScipyDist Model.Models Spec.Special Spec.Densities Spec.Bayes Spec.Joint Spec.Classical.
From Verif Require Import Analysis.Improper Analysis.RealAux Analysis.GammaBeta Analysis.GammaFacts Analysis.Gauss Proofs.Pdfs Proofs.Conj Proofs.Predictive Proofs.Joint.
From Coq Require Import List.
Import ListNotations.
Open Scope R_scope.

(** The parameters that both families share. *)
Definition prior_numbers {M} (d : NormalPrior R M) : R * R * R * R :=
  match d with
  | PNIG d => (NormalInverseGamma_mu d, match NormalInverseGamma_nu d with Some nu => nu | None => 0 end,
               NormalInverseGamma_alpha d, NormalInverseGamma_beta d)
  | PNG d => (NormalGamma_mu d, NormalGamma_lam d, NormalGamma_alpha d, NormalGamma_beta d)
  end.

Lemma mean_alone_nig mu nu a b : 0 < nu -> 0 < a -> 0 < b ->
  first_alone (nig_pdf mu nu a b) (pdf (S_t (2 * a) mu (sqrt (b / (nu * a))))).
Proof.
  intros Hn Ha Hb m. assert (Hc : 0 < / nu) by now apply Rinv_0_lt_compat.
  pose proof (t_from_invgamma a b mu m (/ nu) Ha Hb Hc) as H.
  replace (b / (nu * a)) with (b * / nu / a) by (field; lra).
  revert H. apply (is_RInt_gen_ext_on _ _ _ ends_pos). intros v Hv. unfold nig_pdf.
  replace (/ nu * v) with (v / nu) by (unfold Rdiv; ring). apply Rmult_comm.
Qed.
Lemma mean_alone_ng mu lam a b : 0 < lam -> 0 < a -> 0 < b ->
  first_alone (ng_pdf mu lam a b) (pdf (S_t (2 * a) mu (sqrt (b / (lam * a))))).
Proof.
  intros Hn Ha Hb m. assert (Hc : 0 < / lam) by now apply Rinv_0_lt_compat.
  pose proof (t_from_gamma a b mu m (/ lam) Ha Hb Hc) as H.
  replace (b / (lam * a)) with (b * / lam / a) by (field; lra).
  revert H. apply (is_RInt_gen_ext_on _ _ _ ends_pos). intros t Ht. unfold ng_pdf.
  replace (/ lam / t) with (/ (lam * t)) by (field; lra). rewrite sqrt_inv. apply Rmult_comm.
Qed.
Lemma variance_alone mu nu a b : 0 < nu -> second_alone (nig_pdf mu nu a b) (pdf (InverseGamma_dist (mkInverseGamma a b))).
Proof.
  intros Hn v Hv. assert (Hs : 0 < sqrt (v / nu)) by (apply sqrt_lt_R0; now apply Rdiv_lt_0_compat).
  pose proof (is_RInt_gen_mult_l Fminf Finf _ (pdf (S_invgamma_scale a b) v) _ (norm_normalised mu _ Hs)) as H.
  rewrite Rmult_1_r in H. exact H.
Qed.
Lemma precision_alone mu lam a b : 0 < lam -> second_alone (ng_pdf mu lam a b) (pdf (Gamma_dist (mkGamma a b))).
Proof.
  intros Hn t Ht. assert (Hs : 0 < / sqrt (lam * t)) by (apply Rinv_0_lt_compat, sqrt_lt_R0; now apply Rmult_lt_0_compat).
  pose proof (is_RInt_gen_mult_l Fminf Finf _ (pdf (S_gamma_scale a (/ b)) t) _ (norm_normalised mu _ Hs)) as H.
  rewrite Rmult_1_r in H. replace (pdf (Gamma_dist (mkGamma a b)) t) with (pdf (S_gamma_scale a (/ b)) t). exact H.
  unfold Gamma_dist. cbn [Gamma_alpha Gamma_beta]. f_equal. f_equal. cbv [ndiv nlit NumR]. unfold Rdiv. ring.
Qed.

Lemma mean_alone {M} (d : NormalPrior R M) : normal_prior_ok d ->
  let '(mu, nu, a, b) := prior_numbers d in
  first_alone (normal_prior_pdf d) (pdf (StudentT_dist (mkStudentT mu (sqrt (b / (nu * a))) (2 * a)))).
Proof.
  destruct d as [[mu a b di onu]|[mu nu a b]]; simpl normal_prior_ok.
  - intros (-> & (nu & -> & Hnu) & Ha & Hb). exact (mean_alone_nig mu nu a b Hnu Ha Hb).
  - intros (Hnu & Ha & Hb). exact (mean_alone_ng mu nu a b Hnu Ha Hb).
Qed.

(** ** The flat prior *)

Lemma sum_sq_dev (m : R) data : sumR (map (fun x => (x - m) ^ 2) data) = S2 data - 2 * m * S1 data + INR (length data) * m ^ 2.
Proof.
  unfold S1, S2. induction data as [|x l IH]. simpl. ring.
  assert (C : forall a k, sumR (a :: k) = a + sumR k) by reflexivity.
  cbn [length map]. rewrite S_INR, !C, IH. ring.
Qed.

Lemma flat_square n S T m : 0 < n ->
  / 2 * (T - 2 * m * S + n * m ^ 2) = / 2 * (T - (S / n) ^ 2 * n) + / 2 * (n * (m - S / n) ^ 2).
Proof. intros H. field. lra. Qed.

Section Flat.
Variable data : list R.
Hypothesis two : (2 <= length data)%nat.
Hypothesis varied : 0 < sample_variance data.
Let n := INR (length data).
Let mean := average data.
Let b := / 2 * (S2 data - mean ^ 2 * n).

Lemma n_ge2 : 2 <= n. Proof. unfold n. change 2 with (INR 2). now apply le_INR. Qed.
Lemma b_is : b = (n - 1) / 2 * sample_variance data.
Proof.
  pose proof n_ge2. unfold b, sample_variance. fold n. rewrite sum_sq_dev. fold mean n.
  replace (S1 data) with (n * mean) by (unfold mean, average, S1; fold n; field; lra). field. lra.
Qed.
Lemma b_pos : 0 < b. Proof. rewrite b_is. pose proof n_ge2. apply Rmult_lt_0_compat; lra. Qed.

Lemma flat_nig : bayes_posterior2 Fminf Finf Fpos0 Finf (fun v => 0 < v) flat (lik_mv data) (nig_pdf mean n ((n - 1) / 2) b).
Proof.
  pose proof n_ge2. pose proof b_pos as Hb. set (a := (n - 1) / 2). assert (Ha : 0 < a) by (unfold a; lra).
  pose proof (cst_pos data) as HK. set (K := prodR _) in *. pose proof sqrt_2pi_pos.
  pose proof (Gamma_fun_pos a Ha). assert (0 < Rpower b a) by apply Rpower_pos. assert (0 < sqrt n) by (apply sqrt_lt_R0; lra).
  apply (conj_bayes2 _ _ _ (pdf (S_invgamma_scale a b)) (fun m v => pdf (S_norm mean (sqrt (v / n))) m)
    (K / (Rpower b a / Gamma_fun a * sqrt n / sqrt (2 * PI)))).
  - repeat (apply Rdiv_lt_0_compat || apply Rmult_lt_0_compat || assumption).
  - intros m v Hv. unfold flat. destruct Rlt_dec as [_|C]; [|lra]. unfold lik_mv. rewrite normal_lik2 by auto. fold n K.
    rewrite !nig_pdf_pos by (auto; lra). rewrite (flat_square n (S1 data) (S2 data) m) by lra.
    change (S1 data / n) with mean. fold b.
    replace (- a - 1 - / 2) with (- (1) + - (n / 2)) by (unfold a; field). rewrite (Rpower_plus (- (1)) (- (n / 2))), (Rpower_Ropp v 1), Rpower_1 by auto.
    field. repeat split; lra.
  - intros m v Hv. split. unfold flat. destruct Rlt_dec; lra. now apply nig_pdf_out.
  - intros m v. reflexivity.
  - intros v Hv. apply norm_normalised. apply sqrt_lt_R0. apply Rdiv_lt_0_compat; lra.
  - now apply invgamma_normalised.
Qed.
Lemma flat_ng : bayes_posterior2 Fminf Finf Fpos0 Finf (fun v => 0 < v) flat (lik_mt data) (ng_pdf mean n ((n - 1) / 2) b).
Proof.
  pose proof n_ge2. pose proof b_pos as Hb. set (a := (n - 1) / 2). assert (Ha : 0 < a) by (unfold a; lra).
  pose proof (cst_pos data) as HK. set (K := prodR _) in *. pose proof sqrt_2pi_pos.
  pose proof (Gamma_fun_pos a Ha). assert (0 < Rpower b a) by apply Rpower_pos. assert (0 < sqrt n) by (apply sqrt_lt_R0; lra).
  apply (conj_bayes2 _ _ _ (pdf (S_gamma_scale a (/ b))) (fun m t => pdf (S_norm mean (/ sqrt (n * t))) m)
    (K / (Rpower b a / Gamma_fun a * sqrt n / sqrt (2 * PI)))).
  - repeat (apply Rdiv_lt_0_compat || apply Rmult_lt_0_compat || assumption).
  - intros m t Ht. unfold flat. destruct Rlt_dec as [_|C]; [|lra]. rewrite lik_mt_mv by auto. unfold lik_mv.
    assert (0 < / t) by now apply Rinv_0_lt_compat. rewrite normal_lik2 by auto. fold n K.
    rewrite !ng_pdf_pos by (auto; lra). rewrite (flat_square n (S1 data) (S2 data) m) by lra.
    change (S1 data / n) with mean. fold b.
    replace (a - 1 + / 2) with (- (1) + (n / 2)) by (unfold a; field). rewrite (Rpower_plus (- (1)) (n / 2)), (Rpower_Ropp t 1), Rpower_1 by auto.
    assert (E : Rpower (/ t) (- (n / 2)) = Rpower t (n / 2)).
    { unfold Rpower. rewrite ln_Rinv by auto. f_equal. ring. }
    rewrite E. replace ((b + / 2 * (n * (m - mean) ^ 2)) / / t) with ((b + / 2 * (n * (m - mean) ^ 2)) * t) by (field; lra).
    field. repeat split; lra.
  - intros m t Ht. split. unfold flat. destruct Rlt_dec; lra. now apply ng_pdf_out.
  - intros m t. reflexivity.
  - intros t Ht. apply norm_normalised. apply Rinv_0_lt_compat. apply sqrt_lt_R0. apply Rmult_lt_0_compat; lra.
  - replace (/ b) with (1 / b) by (unfold Rdiv; ring). now apply gamma_normalised.
Qed.

Lemma update_flat mu0 : normal_update (S1 data) (S2 data) n mu0 0 (- / 2) 0 = (mean, n, (n - 1) / 2, b).
Proof.
  pose proof n_ge2. cbv [normal_update nadd nsub nmul ndiv nsq nhalf nlit NumR].
  assert (E : (0 * mu0 + n * (S1 data / n)) / (0 + n) = mean) by (unfold mean, average, S1; fold n; field; lra).
  rewrite E. unfold b. f_equal; [f_equal; [f_equal|]|]; field.
Qed.

(** The t laws written with the sample variance. *)
Lemma t_scale : sqrt (b / (n * ((n - 1) / 2))) = sqrt (sample_variance data / n).
Proof. pose proof n_ge2. f_equal. rewrite b_is. field. lra. Qed.
Lemma t_scale_predictive : sqrt (b * (n + 1) / (n * ((n - 1) / 2))) = sqrt (sample_variance data * (1 + / n)).
Proof. pose proof n_ge2. f_equal. rewrite b_is. field. lra. Qed.
End Flat.

Definition nothing_known {M} (gamma_family : bool) (mu0 : R) : NormalPrior R M :=
  if gamma_family then PNG (mkNormalGamma mu0 0 (- / 2) 0) else PNIG (mkNormalInverseGamma mu0 (- / 2) 0 None (Some 0)).

Lemma classical_t {M} (g : bool) (mu0 : R) (data : list R) : (2 <= length data)%nat -> 0 < sample_variance data ->
  let n := INR (length data) in
  exists post : NormalPrior R M,
    normal (sumR data) (sumR (map (fun x => x ^ 2) data)) n (nothing_known g mu0) = Ok post /\
    normal_prior_ok post /\
    bayes_posterior2 Fminf Finf Fpos0 Finf (fun v => 0 < v) flat
      (fun m v => likelihood (fun p x => pdf (Normal_dist (mkNormal (fst p) (normal_obs_sd post (snd p)))) x) data (m, v))
      (normal_prior_pdf post) /\
    first_alone (normal_prior_pdf post) (pdf (S_t (n - 1) (average data) (sqrt (sample_variance data / n)))) /\
    normal_predictive post = Ok (mkStudentT (average data) (sqrt (sample_variance data * (1 + / n))) (n - 1)).
Proof.
  intros H2 Hv n. pose proof (n_ge2 data H2) as Hn. fold n in Hn. pose proof (b_pos data H2 Hv) as Hb. fold n in Hb.
  pose proof (update_flat data H2 mu0) as U. fold n in U. unfold S1, S2 in U, Hb.
  set (b := / 2 * (sumR (map (fun x => x ^ 2) data) - average data ^ 2 * n)) in *.
  assert (Ha : 0 < (n - 1) / 2) by lra.
  assert (E2 : 2 * ((n - 1) / 2) = n - 1) by field.
  pose proof (t_scale data H2) as T1. pose proof (t_scale_predictive data H2) as T2. fold n in T1, T2. unfold S2 in T1, T2. fold b in T1, T2.
  destruct g; unfold normal, nothing_known; cbn [NormalInverseGamma_nu NormalInverseGamma_mu NormalInverseGamma_alpha NormalInverseGamma_beta NormalGamma_mu NormalGamma_lam NormalGamma_alpha NormalGamma_beta].
  - rewrite U. eexists. split; [reflexivity|]. split; [|split; [|split]].
    + simpl. lra.
    + exact (flat_ng data H2 Hv).
    + pose proof (mean_alone_ng (average data) n ((n - 1) / 2) b ltac:(lra) Ha Hb) as A. rewrite E2, T1 in A. exact A.
    + unfold normal_predictive. cbn [NormalGamma_mu NormalGamma_lam NormalGamma_alpha NormalGamma_beta]. cbv [nsqrt ndiv nmul nadd nlit NumR].
      rewrite E2, T2. reflexivity.
  - rewrite U. eexists. split; [reflexivity|]. split; [|split; [|split]].
    + simpl. split; auto. split. exists n. split; auto. lra. lra.
    + exact (flat_nig data H2 Hv).
    + pose proof (mean_alone_nig (average data) n ((n - 1) / 2) b ltac:(lra) Ha Hb) as A. rewrite E2, T1 in A. exact A.
    + unfold normal_predictive. cbn [NormalInverseGamma_nu NormalInverseGamma_mu NormalInverseGamma_alpha NormalInverseGamma_beta]. cbv [nsqrt ndiv nmul nadd nlit NumR].
      rewrite E2, T2. reflexivity.
Qed.
