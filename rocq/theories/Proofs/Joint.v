(** Joint posteriors of mean and variance (precision), and the Student t predictive. *)

From Coq Require Import Reals Lra Psatz ZArith Lia Classical.
From Coquelicot Require Import Coquelicot.
From Verif Require Import Model.Num Model.Py Model.Dists Model.ScipyDist Model.Models Spec.Special Spec.Densities Spec.Bayes Spec.Joint.
From Verif Require Import Analysis.Improper Analysis.RealAux Analysis.GammaBeta Analysis.GammaFacts Analysis.Gauss Proofs.Pdfs Proofs.Conj Proofs.Predictive.
From Coq Require Import List.
Import ListNotations.
Open Scope R_scope.

Lemma norm_normalised m s : 0 < s -> is_RInt_gen (pdf (S_norm m s)) Fminf Finf 1.
Proof.
  intros Hs. pose proof sqrt_2pi_pos. pose proof PI_RGT_0.
  apply (is_RInt_gen_ext_on _ _ _ ends_line (fun x => / (s * sqrt (2 * PI)) * exp (- (/ s ^ 2 * (x - m) ^ 2) / 2))).
  - intros x _. rewrite norm_pdf by auto. f_equal. f_equal. field. lra.
  - assert (Hp : 0 < / s ^ 2) by (apply Rinv_0_lt_compat; nra).
    assert (E1 : / (s * sqrt (2 * PI)) * sqrt (2 * PI / / s ^ 2) = 1).
    { replace (2 * PI / / s ^ 2) with (2 * PI * s ^ 2) by (field; nra).
      rewrite (sqrt_mult (2 * PI)) by nra. rewrite sqrt_pow2 by lra. field. lra. }
    pose proof (is_RInt_gen_mult_l Fminf Finf _ (/ (s * sqrt (2 * PI))) _ (is_RInt_gen_gauss_prec (/ s ^ 2) m Hp)) as HH.
    rewrite E1 in HH. exact HH.
Qed.

Lemma gamma_normalised a b : 0 < a -> 0 < b -> is_RInt_gen (pdf (S_gamma_scale a (1 / b))) Fpos0 Finf 1.
Proof.
  intros Ha Hb. pose proof (Gamma_fun_pos a Ha). assert (0 < Rpower b a) by apply Rpower_pos.
  apply (is_RInt_gen_ext_on _ _ _ ends_pos (fun t => Rpower b a / Gamma_fun a * (Rpower t (a - 1) * exp (- (b * t))))).
  - intros t Ht. now rewrite gamma_pdf.
  - pose proof (is_RInt_gen_mult_l Fpos0 Finf _ (Rpower b a / Gamma_fun a) _ (is_RInt_gen_Gamma_scaled a b Ha Hb)) as HH.
    assert (E1 : Rpower b a / Gamma_fun a * (Gamma_fun a / Rpower b a) = 1) by (field; lra).
    rewrite E1 in HH. exact HH.
Qed.

Lemma invgamma_normalised a b : 0 < a -> 0 < b -> is_RInt_gen (pdf (S_invgamma_scale a b)) Fpos0 Finf 1.
Proof.
  intros Ha Hb. pose proof (Gamma_fun_pos a Ha). assert (0 < Rpower b a) by apply Rpower_pos.
  apply (is_RInt_gen_ext_on _ _ _ ends_pos (fun t => Rpower b a / Gamma_fun a * (Rpower t (- a - 1) * exp (- (b / t))))).
  - intros t Ht. now rewrite invgamma_pdf.
  - pose proof (is_RInt_gen_mult_l Fpos0 Finf _ (Rpower b a / Gamma_fun a) _ (is_RInt_gen_InvGamma a b Ha Hb)) as HH.
    assert (E1 : Rpower b a / Gamma_fun a * (Gamma_fun a / Rpower b a) = 1) by (field; lra).
    rewrite E1 in HH. exact HH.
Qed.

(** If prior x likelihood = C posterior, and the posterior is conditional x marginal
    with both normalised, then the posterior is Bayes'. *)
Lemma conj_bayes2 (prior lik post : R -> R -> R) (marg : R -> R) (cond : R -> R -> R) (C : R) :
  0 < C ->
  (forall m v, 0 < v -> prior m v * lik m v = C * post m v) ->
  (forall m v, v <= 0 -> prior m v = 0 /\ post m v = 0) ->
  (forall m v, post m v = marg v * cond m v) ->
  (forall v, 0 < v -> is_RInt_gen (fun m => cond m v) Fminf Finf 1) ->
  is_RInt_gen marg Fpos0 Finf 1 ->
  bayes_posterior2 Fminf Finf Fpos0 Finf (fun v => 0 < v) prior lik post.
Proof.
  intros HC Hp Hout Hf Hc Hm. exists (fun v => C * marg v), C. split; [auto|split;[|split]].
  - intros v Hv. apply (is_RInt_gen_ext_on _ _ _ ends_line (fun m => C * marg v * cond m v)).
    + intros m _. rewrite Hp, Hf by auto. ring.
    + pose proof (is_RInt_gen_mult_l Fminf Finf _ (C * marg v) _ (Hc v Hv)) as HH. rewrite Rmult_1_r in HH. exact HH.
  - pose proof (is_RInt_gen_mult_l Fpos0 Finf _ C _ Hm) as HH. rewrite Rmult_1_r in HH. exact HH.
  - intros m v. destruct (Rlt_dec 0 v) as [Hv|Hv].
    + rewrite Hp by auto. field. lra.
    + destruct (Hout m v) as [-> ->]; [lra|]. unfold Rdiv; ring.
Qed.

Lemma nig_pdf_pos mu nu a b m v : 0 < nu -> 0 < b -> 0 < v ->
  nig_pdf mu nu a b m v = Rpower b a / Gamma_fun a * sqrt nu / sqrt (2 * PI) *
    (Rpower v (- a - 1 - / 2) * exp (- ((b + / 2 * (nu * (m - mu) ^ 2)) / v))).
Proof.
  intros Hn Hb Hv. unfold nig_pdf. pose proof sqrt_2pi_pos.
  assert (Hvn : 0 < v / nu) by now apply Rdiv_lt_0_compat.
  rewrite invgamma_pdf, norm_pdf by (auto; now apply sqrt_lt_R0). rewrite pow2_sqrt by lra.
  replace (- a - 1 - / 2) with ((- a - 1) + - / 2) by ring. rewrite (Rpower_plus (- a - 1)), (Rpower_Ropp v (/2)), Rpower_sqrt by auto.
  replace (- ((b + / 2 * (nu * (m - mu) ^ 2)) / v)) with (- (b / v) + - (m - mu) ^ 2 / (2 * (v / nu))) by (field; lra).
  rewrite exp_plus. rewrite sqrt_div_alt by auto.
  assert (0 < sqrt v) by now apply sqrt_lt_R0. assert (0 < sqrt nu) by now apply sqrt_lt_R0.
  unfold Rdiv. rewrite !Rinv_mult, Rinv_inv. ring.
Qed.

Lemma ng_pdf_pos mu lam a b m t : 0 < lam -> 0 < b -> 0 < t ->
  ng_pdf mu lam a b m t = Rpower b a / Gamma_fun a * sqrt lam / sqrt (2 * PI) *
    (Rpower t (a - 1 + / 2) * exp (- ((b + / 2 * (lam * (m - mu) ^ 2)) * t))).
Proof.
  intros Hn Hb Ht. unfold ng_pdf. pose proof sqrt_2pi_pos.
  assert (Hlt : 0 < lam * t) by nra. assert (0 < sqrt (lam * t)) by now apply sqrt_lt_R0.
  replace (/ b) with (1 / b) by (field; lra).
  rewrite gamma_pdf, norm_pdf by (auto; now apply Rinv_0_lt_compat).
  rewrite pow_inv, pow2_sqrt by lra.
  rewrite (Rpower_plus (a - 1) (/2)), Rpower_sqrt by auto.
  replace (- ((b + / 2 * (lam * (m - mu) ^ 2)) * t)) with (- (b * t) + - (m - mu) ^ 2 / (2 * / (lam * t))) by (field; lra).
  rewrite exp_plus. rewrite sqrt_mult in * by lra.
  unfold Rdiv. rewrite !Rinv_mult, !Rinv_inv. ring.
Qed.

Lemma ng_pdf_out mu lam a b m t : 0 < b -> t <= 0 -> ng_pdf mu lam a b m t = 0.
Proof. intros. unfold ng_pdf. replace (/ b) with (1 / b) by (field; lra). rewrite gamma_pdf_out by auto. ring. Qed.

Lemma nig_pdf_out mu nu a b m v : 0 < b -> v <= 0 -> nig_pdf mu nu a b m v = 0.
Proof. intros. unfold nig_pdf. rewrite invgamma_pdf_out by auto. ring. Qed.

(** The algebra of [normal_update]. *)
Definition S1 (data : list R) := sumR data.
Definition S2 (data : list R) := sumR (map (fun x => x ^ 2) data).

Lemma nu_update_square n S T mu0 nu b m : 0 < n -> 0 < nu ->
  let x_mean := S / n in
  let mu' := (nu * mu0 + n * x_mean) / (nu + n) in
  let b' := b + / 2 * (mu0 ^ 2 * nu + T - mu' ^ 2 * (nu + n)) in
  b + / 2 * (nu * (m - mu0) ^ 2) + / 2 * (T - 2 * m * S + n * m ^ 2) = b' + / 2 * ((nu + n) * (m - mu') ^ 2).
Proof. intros Hn Hnu x_mean mu' b'. unfold b', mu', x_mean. field. lra. Qed.

Lemma beta_post_pos data n mu0 nu b : data <> [] -> n = INR (length data) -> 0 < nu -> 0 < b ->
  let x_mean := S1 data / n in
  let mu' := (nu * mu0 + n * x_mean) / (nu + n) in
  0 < b + / 2 * (mu0 ^ 2 * nu + S2 data - mu' ^ 2 * (nu + n)).
Proof.
  intros Hd Hn Hnu Hb x_mean mu'.
  assert (Hn0 : 0 < n). { rewrite Hn. apply lt_0_INR. destruct data; simpl; [congruence|lia]. }
  pose proof (sq_dev_nonneg mu' data) as Hsq. rewrite <- Hn in Hsq. fold (S2 data) (S1 data) in Hsq.
  pose proof (nu_update_square n (S1 data) (S2 data) mu0 nu b mu' Hn0 Hnu) as H. cbv zeta in H. fold x_mean mu' in H.
  assert (0 <= nu * (mu' - mu0) ^ 2) by (apply Rmult_le_pos; [lra|apply pow2_ge_0]).
  replace (mu' - mu') with 0 in H by ring. lra.
Qed.

(** The normal likelihood as a function of mean and variance. *)
Lemma normal_lik2 (data : list R) m v : 0 < v ->
  likelihood (fun (p : R * R) x => pdf (Normal_dist (mkNormal (fst p) (sqrt (snd p)))) x) data (m, v) =
  prodR (map (fun _ => / sqrt (2 * PI)) data)
   * (Rpower v (- (INR (length data) / 2)) * exp (- (/2 * (S2 data - 2 * m * S1 data + INR (length data) * m ^ 2) / v))).
Proof.
  intros Hv. exact (proj1 (normal_known_mean_likelihood m data v Hv)).
Qed.

Lemma cst_pos data : 0 < prodR (map (fun _ : R => / sqrt (2 * PI)) data).
Proof. exact (proj2 (normal_known_mean_likelihood 0 data 1 Rlt_0_1)). Qed.

Definition lik_mv (data : list R) (m v : R) : R :=
  likelihood (fun (p : R * R) x => pdf (Normal_dist (mkNormal (fst p) (sqrt (snd p)))) x) data (m, v).

(** C10, normal-inverse-gamma *)
Lemma normal_nig_core (data : list R) mu0 nu a b : data <> [] -> 0 < nu -> 0 < a -> 0 < b ->
  let n := INR (length data) in
  let '(mu', nu', a', b') := normal_update (S1 data) (S2 data) n mu0 nu a b in
  bayes_posterior2 Fminf Finf Fpos0 Finf (fun v => 0 < v)
    (nig_pdf mu0 nu a b) (lik_mv data) (nig_pdf mu' nu' a' b').
Proof.
  intros Hd Hnu Ha Hb n. cbv [normal_update nadd nsub nmul ndiv nsq nhalf nlit NumR].
  assert (Hn0 : 0 < n). { unfold n. apply lt_0_INR. destruct data; simpl; [congruence|lia]. }
  pose proof (beta_post_pos data n mu0 nu b Hd eq_refl Hnu Hb) as Hb'. cbv zeta in Hb'.
  pose proof (fun m => nu_update_square n (S1 data) (S2 data) mu0 nu b m Hn0 Hnu) as Hsq. cbv zeta in Hsq.
  set (mu' := (nu * mu0 + n * (S1 data / n)) / (nu + n)) in *.
  set (b' := b + / 2 * (mu0 ^ 2 * nu + S2 data - mu' ^ 2 * (nu + n))) in *.
  pose proof (cst_pos data) as HK. set (K := prodR _) in *. pose proof sqrt_2pi_pos.
  pose proof (Gamma_fun_pos a Ha). pose proof (Gamma_fun_pos (a + n / 2) ltac:(lra)).
  assert (0 < Rpower b a) by apply Rpower_pos. assert (0 < Rpower b' (a + n / 2)) by apply Rpower_pos.
  assert (0 < sqrt nu) by now apply sqrt_lt_R0. assert (0 < sqrt (nu + n)) by (apply sqrt_lt_R0; lra).
  apply (conj_bayes2 _ _ _ (pdf (S_invgamma_scale (a + n / 2) b')) (fun m v => pdf (S_norm mu' (sqrt (v / (nu + n)))) m)
    (K * (Rpower b a / Gamma_fun a * sqrt nu) / (Rpower b' (a + n / 2) / Gamma_fun (a + n / 2) * sqrt (nu + n)))).
  - repeat (apply Rdiv_lt_0_compat || apply Rmult_lt_0_compat || assumption).
  - intros m v Hv. unfold lik_mv. rewrite normal_lik2 by auto. fold n K.
    rewrite !nig_pdf_pos by (auto; lra).
    replace (- (a + n / 2) - 1 - / 2) with (- a - 1 - / 2 + - (n / 2)) by ring. rewrite (Rpower_plus (- a - 1 - / 2)).
    rewrite <- Hsq.
    replace (- ((b + / 2 * (nu * (m - mu0) ^ 2) + / 2 * (S2 data - 2 * m * S1 data + n * m ^ 2)) / v))
      with (- ((b + / 2 * (nu * (m - mu0) ^ 2)) / v) + - (/ 2 * (S2 data - 2 * m * S1 data + n * m ^ 2) / v)) by (field; lra).
    rewrite exp_plus. field. repeat split; lra.
  - intros m v Hv. split; now apply nig_pdf_out.
  - intros m v. reflexivity.
  - intros v Hv. apply norm_normalised. apply sqrt_lt_R0. apply Rdiv_lt_0_compat; lra.
  - apply invgamma_normalised; lra.
Qed.

(** C10, normal-gamma *)
Definition lik_mt (data : list R) (m t : R) : R :=
  likelihood (fun (p : R * R) x => pdf (Normal_dist (mkNormal (fst p) (/ sqrt (snd p)))) x) data (m, t).

Lemma lik_mt_mv data m t : 0 < t -> lik_mt data m t = lik_mv data m (/ t).
Proof.
  intros Ht. unfold lik_mt, lik_mv, likelihood. simpl. rewrite sqrt_inv. reflexivity.
Qed.

Lemma normal_ng_core (data : list R) mu0 nu a b : data <> [] -> 0 < nu -> 0 < a -> 0 < b ->
  let n := INR (length data) in
  let '(mu', nu', a', b') := normal_update (S1 data) (S2 data) n mu0 nu a b in
  bayes_posterior2 Fminf Finf Fpos0 Finf (fun t => 0 < t)
    (ng_pdf mu0 nu a b) (lik_mt data) (ng_pdf mu' nu' a' b').
Proof.
  intros Hd Hnu Ha Hb n. cbv [normal_update nadd nsub nmul ndiv nsq nhalf nlit NumR].
  assert (Hn0 : 0 < n). { unfold n. apply lt_0_INR. destruct data; simpl; [congruence|lia]. }
  pose proof (beta_post_pos data n mu0 nu b Hd eq_refl Hnu Hb) as Hb'. cbv zeta in Hb'.
  pose proof (fun m => nu_update_square n (S1 data) (S2 data) mu0 nu b m Hn0 Hnu) as Hsq. cbv zeta in Hsq.
  set (mu' := (nu * mu0 + n * (S1 data / n)) / (nu + n)) in *.
  set (b' := b + / 2 * (mu0 ^ 2 * nu + S2 data - mu' ^ 2 * (nu + n))) in *.
  pose proof (cst_pos data) as HK. set (K := prodR _) in *. pose proof sqrt_2pi_pos.
  pose proof (Gamma_fun_pos a Ha). pose proof (Gamma_fun_pos (a + n / 2) ltac:(lra)).
  assert (0 < Rpower b a) by apply Rpower_pos. assert (0 < Rpower b' (a + n / 2)) by apply Rpower_pos.
  assert (0 < sqrt nu) by now apply sqrt_lt_R0. assert (0 < sqrt (nu + n)) by (apply sqrt_lt_R0; lra).
  apply (conj_bayes2 _ _ _ (pdf (S_gamma_scale (a + n / 2) (/ b'))) (fun m t => pdf (S_norm mu' (/ sqrt ((nu + n) * t))) m)
    (K * (Rpower b a / Gamma_fun a * sqrt nu) / (Rpower b' (a + n / 2) / Gamma_fun (a + n / 2) * sqrt (nu + n)))).
  - repeat (apply Rdiv_lt_0_compat || apply Rmult_lt_0_compat || assumption).
  - intros m t Ht. rewrite lik_mt_mv by auto. unfold lik_mv. assert (0 < / t) by now apply Rinv_0_lt_compat.
    rewrite normal_lik2 by auto. fold n K.
    rewrite !ng_pdf_pos by (auto; lra).
    replace (a + n / 2 - 1 + / 2) with (a - 1 + / 2 + n / 2) by ring. rewrite (Rpower_plus (a - 1 + / 2) (n / 2)).
    rewrite <- Hsq.
    replace (- ((b + / 2 * (nu * (m - mu0) ^ 2) + / 2 * (S2 data - 2 * m * S1 data + n * m ^ 2)) * t))
      with (- ((b + / 2 * (nu * (m - mu0) ^ 2)) * t) + - (/ 2 * (S2 data - 2 * m * S1 data + n * m ^ 2) / / t)) by (field; lra).
    assert (E : Rpower (/ t) (- (n / 2)) = Rpower t (n / 2)).
    { unfold Rpower. rewrite ln_Rinv by auto. f_equal. ring. }
    rewrite E, exp_plus. field. repeat split; lra.
  - intros m t Ht. split; now apply ng_pdf_out.
  - intros m t. reflexivity.
  - intros t Ht. apply norm_normalised. apply Rinv_0_lt_compat. apply sqrt_lt_R0. apply Rmult_lt_0_compat; lra.
  - replace (/ b') with (1 / b') by (unfold Rdiv; ring). apply gamma_normalised; lra.
Qed.

Lemma normal_bayes {M} (prior : NormalPrior R M) (data : list R) : data <> [] -> normal_prior_ok prior ->
  exists post, normal (sumR data) (sumR (map (fun x => x ^ 2) data)) (INR (length data)) prior = Ok post /\
    normal_prior_ok post /\
    bayes_posterior2 Fminf Finf Fpos0 Finf (fun v => 0 < v)
     (normal_prior_pdf prior)
     (fun m v => likelihood (fun p x => pdf (Normal_dist (mkNormal (fst p) (normal_obs_sd prior (snd p)))) x) data (m, v))
     (normal_prior_pdf post) /\
    (forall v, normal_obs_sd post v = normal_obs_sd prior v).
Proof.
  intros Hd. destruct prior as [[mu a b di onu]|[mu nu a b]]; simpl normal_prior_ok.
  - intros (-> & (nu & -> & Hnu) & Ha & Hb).
    pose proof (normal_nig_core data mu nu a b Hd Hnu Ha Hb) as H.
    pose proof (beta_post_pos data _ mu nu b Hd eq_refl Hnu Hb) as Hb'.
    assert (Hn := pos_INR (length data)).
    unfold normal. simpl NormalInverseGamma_nu. simpl NormalInverseGamma_mu. cbv beta iota.
    unfold normal_update in *. simpl.
    eexists. split; [reflexivity|]. split; [|split].
    + simpl. split; auto. split. exists (nu + INR (length data)). split; auto. lra. split. lra. exact Hb'.
    + exact H.
    + reflexivity.
  - intros (Hnu & Ha & Hb).
    pose proof (normal_ng_core data mu nu a b Hd Hnu Ha Hb) as H.
    pose proof (beta_post_pos data _ mu nu b Hd eq_refl Hnu Hb) as Hb'.
    assert (Hn := pos_INR (length data)).
    unfold normal. unfold normal_update in *. 
    eexists. split; [reflexivity|]. split; [|split].
    + simpl. split. lra. split. lra. exact Hb'.
    + exact H.
    + reflexivity.
Qed.

(** log_normal *)
Lemma lognormal_lik m v data : 0 < v -> Forall (fun x => 0 < x) data ->
  likelihood (fun (p : R * R) x => lognormal_pdf (fst p) (snd p) x) data (m, v) =
  prodR (map (fun x => / x) data) * lik_mv (map ln data) m v.
Proof.
  intros Hv H. pose proof sqrt_2pi_pos. pose proof PI_RGT_0. assert (0 < sqrt v) by now apply sqrt_lt_R0.
  induction H as [|x l Hx Hl IH].
  - unfold lik_mv. simpl. rewrite !likelihood_nil. ring.
  - unfold lik_mv in *. simpl map. rewrite !likelihood_cons, prodR_cons, IH. simpl fst. simpl snd.
    unfold lognormal_pdf, Normal_dist. simpl Normal_mu. simpl Normal_sigma. rewrite norm_pdf by auto.
    rewrite pow2_sqrt by lra. rewrite sqrt_mult by lra. field. lra.
Qed.

Lemma prod_inv_pos data : Forall (fun x => 0 < x) data -> 0 < prodR (map (fun x => / x) data).
Proof.
  induction 1; simpl. lra. apply Rmult_lt_0_compat; auto. now apply Rinv_0_lt_compat.
Qed.

Lemma bayes_posterior2_scale Fa Fb Ga Gb (FFa : Filter Fa) (FFb : Filter Fb) (FGa : Filter Ga) (FGb : Filter Gb)
  (dom : R -> Prop) prior lik lik' post c : 0 < c ->
  Ends (fun v => True) Fa Fb -> 
  (forall m v, dom v -> lik' m v = c * lik m v) -> (forall m v, ~ dom v -> prior m v = 0) ->
  bayes_posterior2 Fa Fb Ga Gb dom prior lik post -> bayes_posterior2 Fa Fb Ga Gb dom prior lik' post.
Proof.
  intros Hc HE Hl Hd (inner & ev & Hev & H1 & H2 & H3).
  exists (fun v => c * inner v), (c * ev). split; [|split; [|split]].
  - nra.
  - intros v Hv. apply (is_RInt_gen_ext_on _ _ _ HE (fun m => c * (prior m v * lik m v))).
    + intros m _. rewrite Hl by auto. ring.
    + apply is_RInt_gen_mult_l; auto.
  - apply is_RInt_gen_mult_l; auto.
  - intros m v. rewrite H3. destruct (classic (dom v)) as [Hv|Hv].
    + rewrite Hl by auto. field. lra.
    + rewrite Hd by auto. unfold Rdiv. ring.
Qed.

Lemma log_normal_bayes {M} (prior : NormalPrior R M) (data : list R) : data <> [] -> Forall (fun x => 0 < x) data ->
  normal_prior_ok prior ->
  exists post, log_normal (sumR (map ln data)) (sumR (map (fun x => (ln x) ^ 2) data)) (INR (length data)) prior = Ok post /\
    normal_prior_ok post /\
    bayes_posterior2 Fminf Finf Fpos0 Finf (fun v => 0 < v)
     (normal_prior_pdf prior)
     (fun m v => likelihood (fun p x => lognormal_pdf (fst p) ((normal_obs_sd prior (snd p)) ^ 2) x) data (m, v))
     (normal_prior_pdf post).
Proof.
  intros Hd Hpos Hok.
  assert (Hd' : map ln data <> []) by (destruct data; simpl; congruence).
  destruct (normal_bayes prior (map ln data) Hd' Hok) as (post & H1 & H2 & H3 & _).
  exists post. split; [|split]; auto.
  - unfold log_normal. rewrite <- H1. rewrite map_map, map_length. reflexivity.
  - revert H3. apply (bayes_posterior2_scale _ _ _ _ _ _ _ _ _ _ _ _ _ (prodR (map (fun x => / x) data))).
    + now apply prod_inv_pos.
    + apply ends_line.
    + intros m v Hv. assert (Hv' : 0 < / v) by now apply Rinv_0_lt_compat.
      destruct prior as [d|d]; simpl normal_obs_sd.
      * transitivity (likelihood (fun (p : R * R) x => lognormal_pdf (fst p) (snd p) x) data (m, v)).
        -- unfold likelihood. simpl fst. simpl snd. rewrite pow2_sqrt by lra. reflexivity.
        -- now apply lognormal_lik.
      * transitivity (likelihood (fun (p : R * R) x => lognormal_pdf (fst p) (snd p) x) data (m, / v)).
        -- unfold likelihood. simpl fst. simpl snd. rewrite pow_inv, pow2_sqrt by lra. reflexivity.
        -- rewrite lognormal_lik by auto. f_equal. symmetry. now apply lik_mt_mv.
    + intros m v Hv. destruct prior as [[mu a b di onu]|[mu nu a b]]; simpl in *.
      * destruct Hok as (-> & (nu & -> & Hnu) & Ha & Hb). apply nig_pdf_out; lra.
      * apply ng_pdf_out; lra.
Qed.

(** C27 *)
Lemma t_from_gamma (a b mu x c : R) : 0 < a -> 0 < b -> 0 < c ->
  marginal Fpos0 Finf (pdf (S_gamma_scale a (/ b))) (fun t => pdf (S_norm mu (sqrt (c / t))) x)
    (pdf (S_t (2 * a) mu (sqrt (b * c / a))) x).
Proof.
  intros Ha Hb Hc. pose proof (Gamma_fun_pos a Ha) as HG. pose proof (Gamma_fun_pos (a + /2) ltac:(lra)) as HG2.
  pose proof sqrt_2pi_pos. pose proof PI_RGT_0. assert (Hsc : 0 < sqrt c) by now apply sqrt_lt_R0.
  set (d2 := (x - mu) ^ 2 / (2 * c)).
  assert (Hd : 0 <= d2) by (apply Rmult_le_pos; [apply pow2_ge_0|left; apply Rinv_0_lt_compat; lra]).
  replace (/ b) with (1 / b) by (field; lra).
  apply (marginal_kernel _ _ _ ends_pos _ _ (fun t => Rpower t (a + /2 - 1) * exp (- ((b + d2) * t)))
     (/ (sqrt c * sqrt (2 * PI)) * (Rpower b a / Gamma_fun a)) (Gamma_fun (a + /2) / Rpower (b + d2) (a + /2))).
  - intros t Ht. assert (Hct : 0 < c / t) by now apply Rdiv_lt_0_compat.
    rewrite norm_pdf by now apply sqrt_lt_R0. rewrite gamma_pdf by auto.
    rewrite pow2_sqrt by lra. rewrite sqrt_div_alt by lra.
    replace (a + /2 - 1) with (a - 1 + / 2) by ring. rewrite (Rpower_plus (a - 1) (/ 2)), Rpower_sqrt by auto.
    replace (- ((b + d2) * t)) with (- (x - mu) ^ 2 / (2 * (c / t)) + - (b * t)) by (unfold d2; field; lra).
    rewrite exp_plus. assert (0 < sqrt t) by now apply sqrt_lt_R0. field. lra.
  - apply is_RInt_gen_Gamma_scaled; lra.
  - assert (Hbca : 0 < b * c / a) by (apply Rdiv_lt_0_compat; nra).
    rewrite t_pdf; try lra. 2: now apply sqrt_lt_R0.
    rewrite pow2_sqrt by lra. replace (2 * a / 2) with a by field.
    rewrite Beta_fun_Gamma, Gamma_half by lra. replace (/2 + a) with (a + /2) by ring.
    replace (1 + (x - mu) ^ 2 / (2 * a * (b * c / a))) with ((b + d2) / b) by (unfold d2; field; lra).
    replace ((2 * a + 1) / 2) with (a + /2) by field.
    rewrite Rpower_Ropp, Rpower_div_base by lra. rewrite (Rpower_plus a (/2) b), (Rpower_sqrt b) by auto.
    assert (Hs : sqrt (b * c / a) * sqrt (2 * a) = sqrt b * (sqrt c * sqrt 2)).
    { rewrite <- !sqrt_mult by lra. f_equal. field. lra. }
    rewrite (sqrt_mult 2 PI) by lra.
    assert (0 < sqrt 2) by (apply sqrt_lt_R0; lra). assert (0 < sqrt PI) by (apply sqrt_lt_R0; lra).
    assert (0 < sqrt b) by (apply sqrt_lt_R0; lra). assert (0 < Rpower b a) by apply Rpower_pos.
    assert (0 < Rpower (b + d2) (a + / 2)) by apply Rpower_pos.
    rewrite Hs. field. repeat split; lra.
Qed.

Lemma normal_predictive_marginal {M} (d : NormalPrior R M) (x : R) : normal_prior_ok d ->
  exists t, normal_predictive d = Ok t /\
  marginal2 Fminf Finf Fpos0 Finf (fun v => 0 < v) (normal_prior_pdf d)
    (fun m v => pdf (Normal_dist (mkNormal m (normal_obs_sd d v))) x)
    (pdf (StudentT_dist t) x).
Proof.
  destruct d as [[mu a b di onu]|[mu nu a b]]; simpl normal_prior_ok.
  - intros (-> & (nu & -> & Hnu) & Ha & Hb). eexists. split; [reflexivity|].
    exists (fun v => pdf (S_norm mu (sqrt ((1 + / nu) * v))) x * pdf (S_invgamma_scale a b) v). split.
    + intros v Hv. assert (Hvn : 0 < v / nu) by now apply Rdiv_lt_0_compat.
      pose proof (normal_normal_marginal mu (sqrt (v / nu)) (sqrt v) x (sqrt_lt_R0 _ Hvn) (sqrt_lt_R0 _ Hv)) as H.
      rewrite !pow2_sqrt in H by lra. replace (v + v / nu) with ((1 + / nu) * v) in H by (field; lra).
      apply (is_RInt_gen_mult_l Fminf Finf _ (pdf (S_invgamma_scale a b) v)) in H.
      rewrite Rmult_comm. revert H. apply (is_RInt_gen_ext_on _ _ _ ends_line). intros m _.
      unfold normal_prior_pdf, nig_pdf, Normal_dist, normal_obs_sd. cbn [NormalInverseGamma_nu NormalInverseGamma_mu NormalInverseGamma_alpha NormalInverseGamma_beta Normal_mu Normal_sigma]. ring.
    + assert (Hc : 0 < 1 + / nu) by (assert (0 < / nu) by (now apply Rinv_0_lt_compat); lra).
      pose proof (t_from_invgamma a b mu x (1 + / nu) Ha Hb Hc) as H.
      cbv [StudentT_dist StudentT_mu StudentT_nu StudentT_sigma NormalInverseGamma_nu NormalInverseGamma_mu NormalInverseGamma_alpha NormalInverseGamma_beta nsqrt ndiv nmul nadd nlit NumR].
      replace (b * (nu + 1) / (nu * a)) with (b * (1 + / nu) / a) by (field; lra). exact H.
  - intros (Hnu & Ha & Hb). eexists. split; [reflexivity|].
    exists (fun t => pdf (S_norm mu (sqrt ((1 + / nu) / t))) x * pdf (S_gamma_scale a (/ b)) t). split.
    + intros t Ht. assert (Hvn : 0 < nu * t) by now apply Rmult_lt_0_compat.
      assert (H0 : 0 < / sqrt (nu * t)) by (apply Rinv_0_lt_compat; now apply sqrt_lt_R0).
      assert (H1 : 0 < / sqrt t) by (apply Rinv_0_lt_compat; now apply sqrt_lt_R0).
      pose proof (normal_normal_marginal mu (/ sqrt (nu * t)) (/ sqrt t) x H0 H1) as H.
      rewrite !pow_inv, !pow2_sqrt in H by lra. replace (/ t + / (nu * t)) with ((1 + / nu) / t) in H by (field; lra).
      apply (is_RInt_gen_mult_l Fminf Finf _ (pdf (S_gamma_scale a (/ b)) t)) in H.
      rewrite Rmult_comm. revert H. apply (is_RInt_gen_ext_on _ _ _ ends_line). intros m _.
      unfold normal_prior_pdf, ng_pdf, Normal_dist, normal_obs_sd. cbn [NormalGamma_lam NormalGamma_mu NormalGamma_alpha NormalGamma_beta Normal_mu Normal_sigma]. ring.
    + assert (Hc : 0 < 1 + / nu) by (assert (0 < / nu) by (now apply Rinv_0_lt_compat); lra).
      pose proof (t_from_gamma a b mu x (1 + / nu) Ha Hb Hc) as H.
      cbv [StudentT_dist StudentT_mu StudentT_nu StudentT_sigma NormalGamma_lam NormalGamma_mu NormalGamma_alpha NormalGamma_beta nsqrt ndiv nmul nadd nlit NumR].
      replace (b * (nu + 1) / (nu * a)) with (b * (1 + / nu) / a) by (field; lra). exact H.
Qed.
