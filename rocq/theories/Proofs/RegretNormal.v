(** Regret of predicting with a learned mean and variance. *)

From Coq Require Import Reals Lra Lia ZArith Psatz.
From Coquelicot Require Import Coquelicot.
From Verif Require Import Model.Num Model.Py Model.Dists Model.ScipyDist Model.Models.
From Verif Require Import Spec.Special Spec.Densities Spec.Bayes Spec.Prequential Spec.Joint Spec.Regret.
From Verif Require Import Analysis.Improper Analysis.GammaBeta Analysis.GammaFacts Proofs.Pdfs Proofs.Conj Proofs.Predictive Proofs.Joint Proofs.Dirichlet Proofs.Prequential Proofs.Regret Proofs.RegretGamma Proofs.RegretBeta.
From Coq Require Import List.
Import ListNotations.
Open Scope R_scope.

(** the scatter is smallest about the mean *)
Lemma scatter_shift m data : data <> [] ->
  let n := INR (length data) in
  scatter m data = scatter (sumR data / n) data + n * (m - sumR data / n) ^ 2.
Proof.
  intros N n. assert (Hn : 0 < n). { unfold n. apply lt_0_INR. destruct data; [congruence|simpl; lia]. }
  rewrite <- !scatter_expand. fold n. field. lra.
Qed.

Lemma scatter_spread mu data x y : In x data -> In y data -> x <> y -> 0 < scatter mu data.
Proof.
  intros Hx Hy D.
  assert (H : forall z, In z data -> (z - mu) ^ 2 <= scatter mu data).
  { clear. intros z. unfold scatter. induction data as [|w l IH]; [intros []|]. unfold sumR in *. cbn [map fold_right].
    pose proof (scatter_nonneg mu l) as S. unfold scatter, sumR in S. pose proof (pow2_ge_0 (w - mu)). intros [->|HI]; [lra|]. specialize (IH HI). lra. }
  pose proof (H x Hx) as H1. pose proof (H y Hy) as H2.
  destruct (Req_dec x mu) as [->|E].
  - assert (y - mu <> 0) as E by lra. pose proof (Rlt_0_sqr _ E) as P. unfold Rsqr in P. nra.
  - assert (x - mu <> 0) as E' by lra. pose proof (Rlt_0_sqr _ E') as P. unfold Rsqr in P. nra.
Qed.

Section Ratio.
Variables (mu nu a b mu' nu' h b' Q m c L : R).
Hypothesis Hnu : 0 < nu. Hypothesis Hnu' : 0 < nu'. Hypothesis Ha : 0 < a. Hypothesis Hh : 0 <= h. Hypothesis Hb : 0 < b. Hypothesis Hb' : 0 < b'. Hypothesis Hc : 0 < c.
Hypothesis square : b + / 2 * (nu * (m - mu) ^ 2) + Q = b' + / 2 * (nu' * (m - mu') ^ 2).
Let K := sqrt (nu' / nu) * (Gamma_fun a / Gamma_fun (a + h)) * (Rpower b' (a + h) / Rpower b a).

Lemma nig_ratio v : 0 < v -> nig_pdf mu' nu' (a + h) b' m v = nig_pdf mu nu a b m v * L / c ->
  L = K * (Rpower (/ v) h * exp (- (Q * / v))) * c.
Proof.
  intros Hv E. rewrite !nig_pdf_pos in E by assumption. rewrite <- square in E.
  replace (- (a + h) - 1 - / 2) with (- a - 1 - / 2 + - h) in E by ring. rewrite (Rpower_plus (- a - 1 - / 2)) in E.
  replace (- ((b + / 2 * (nu * (m - mu) ^ 2) + Q) / v)) with (- ((b + / 2 * (nu * (m - mu) ^ 2)) / v) + - (Q * / v)) in E by (field; lra).
  rewrite exp_plus in E. replace (Rpower v (- h)) with (Rpower (/ v) h) in E by (unfold Rpower; rewrite ln_Rinv by exact Hv; f_equal; ring).
  pose proof (Gamma_fun_pos a Ha). pose proof (Gamma_fun_pos (a + h) ltac:(lra)). pose proof sqrt_2pi_pos.
  assert (0 < Rpower b a) by apply exp_pos. assert (0 < Rpower v (- a - 1 - / 2)) by apply exp_pos.
  assert (0 < exp (- ((b + / 2 * (nu * (m - mu) ^ 2)) / v))) by apply exp_pos. assert (0 < sqrt nu) by now apply sqrt_lt_R0.
  match type of E with ?l = ?k * L / c => assert (EL : L = l * c * / k) by (rewrite E; field; repeat split; lra) end.
  rewrite EL. unfold K. rewrite sqrt_div_alt by exact Hnu. field. repeat split; lra.
Qed.

Lemma ng_ratio t : 0 < t -> ng_pdf mu' nu' (a + h) b' m t = ng_pdf mu nu a b m t * L / c ->
  L = K * (Rpower t h * exp (- (Q * t))) * c.
Proof.
  intros Ht E. rewrite !ng_pdf_pos in E by assumption. rewrite <- square in E.
  replace (a + h - 1 + / 2) with (a - 1 + / 2 + h) in E by ring. rewrite (Rpower_plus (a - 1 + / 2)) in E.
  replace (- ((b + / 2 * (nu * (m - mu) ^ 2) + Q) * t)) with (- ((b + / 2 * (nu * (m - mu) ^ 2)) * t) + - (Q * t)) in E by ring.
  rewrite exp_plus in E.
  pose proof (Gamma_fun_pos a Ha). pose proof (Gamma_fun_pos (a + h) ltac:(lra)). pose proof sqrt_2pi_pos.
  assert (0 < Rpower b a) by apply exp_pos. assert (0 < Rpower t (a - 1 + / 2)) by apply exp_pos.
  assert (0 < exp (- ((b + / 2 * (nu * (m - mu) ^ 2)) * t))) by apply exp_pos. assert (0 < sqrt nu) by now apply sqrt_lt_R0.
  match type of E with ?l = ?k * L / c => assert (EL : L = l * c * / k) by (rewrite E; field; repeat split; lra) end.
  rewrite EL. unfold K. rewrite sqrt_div_alt by exact Hnu. field. repeat split; lra.
Qed.
End Ratio.

(** the precision belonging to the second coordinate *)
Definition precision_of {M} (d : NormalPrior R M) (v : R) : R := match d with PNIG _ => / v | PNG _ => v end.

Section Normal.
Context {M : Type} (prior : NormalPrior R M).
Hypothesis ok : normal_prior_ok prior.
Let lik := fun (p : R * R) x => pdf (Normal_dist (mkNormal (fst p) (normal_obs_sd prior (snd p)))) x.
Let update := fun (d : NormalPrior R M) (x : R) => normal x (x ^ 2) 1 d.
Let predict := fun (d : NormalPrior R M) (x : R) => let* t := normal_predictive d in Ok (pdf (StudentT_dist t) x).

Lemma normal_closed (data : list R) : data <> [] ->
  exists K, 0 < K /\
  (forall S, 0 < S -> S = scatter (sumR data / INR (length data)) data ->
     K * (Rpower (INR (length data) / 2 / (S / 2)) (INR (length data) / 2) * exp (- (INR (length data) / 2))) = normal_joint_factor prior data) /\
  exists e c, one_by_one update predict prior data = Ok (e, c) /\ 0 < c /\
  forall m v, 0 < v -> likelihood lik data (m, v) =
    K * (Rpower (precision_of prior v) (INR (length data) / 2) * exp (- (scatter m data / 2 * precision_of prior v))) * c.
Proof.
  intros N. set (n := INR (length data)).
  assert (Hn : 0 < n). { unfold n. apply lt_0_INR. destruct data; [congruence|simpl; lia]. }
  assert (F : Forall (fun _ : R => True) data) by (apply Forall_forall; auto).
  destruct (normal_prequential (normal_obs_sd prior) prior data (conj ok (fun v => eq_refl)) F) as (e & c & E & _ & Hc & I & _).
  assert (Sq : forall m, / 2 * (S2 data - 2 * m * S1 data + n * m ^ 2) = scatter m data / 2).
  { intros m. rewrite <- scatter_expand. unfold S1, S2. fold n. field. }
  assert (Uniq : forall inner ev, (forall v, 0 < v -> is_RInt_gen (fun m => normal_prior_pdf prior m v * likelihood lik data (m, v)) Fminf Finf (inner v)) ->
    is_RInt_gen inner Fpos0 Finf ev -> ev = c).
  { intros inner ev H1 H2. refine (over2_uniq (fun t => likelihood lik data t * joint prior t) ev c _ I). exists inner. split; [|exact H2].
    intros v Hv. eapply (over1_ext Fminf Finf); [|exact (H1 v Hv)]. intros m. unfold joint. cbn [fst snd]. ring. }
  assert (Facts : forall mu nu a b, 0 < nu -> 0 < a -> 0 < b ->
    let mu' := (nu * mu + n * (S1 data / n)) / (nu + n) in
    let b' := b + / 2 * (mu ^ 2 * nu + S2 data - mu' ^ 2 * (nu + n)) in
    let K := sqrt ((nu + n) / nu) * (Gamma_fun a / Gamma_fun (a + n / 2)) * (Rpower b' (a + n / 2) / Rpower b a) in
    0 < b' /\ 0 < K /\
    (forall m, b + / 2 * (nu * (m - mu) ^ 2) + scatter m data / 2 = b' + / 2 * ((nu + n) * (m - mu') ^ 2)) /\
    (forall S, 0 < S -> S = scatter (sumR data / n) data ->
      K * (Rpower (n / 2 / (S / 2)) (n / 2) * exp (- (n / 2))) = joint_factor mu nu a b data)).
  { intros mu nu a b Hnu Ha Hb mu' b' K.
    pose proof (beta_post_pos data n mu nu b N eq_refl Hnu Hb) as Hb'. cbv zeta in Hb'. fold mu' b' in Hb'.
    pose proof (Gamma_fun_pos a Ha). pose proof (Gamma_fun_pos (a + n / 2) ltac:(lra)).
    split; [exact Hb'|]. split.
    { unfold K. apply Rmult_lt_0_compat; [apply Rmult_lt_0_compat|].
      - apply sqrt_lt_R0, Rdiv_lt_0_compat; lra.
      - now apply Rdiv_lt_0_compat.
      - apply Rdiv_lt_0_compat; apply exp_pos. }
    split.
    { intros m. rewrite <- Sq. exact (nu_update_square n (S1 data) (S2 data) mu nu b m Hn Hnu). }
    intros S HS ES. unfold joint_factor. cbv zeta. fold n. fold (scatter (sumR data / n) data). rewrite <- ES.
    assert (Eb : b + S / 2 + nu * n * (sumR data / n - mu) ^ 2 / (2 * (nu + n)) = b').
    { rewrite ES, <- scatter_expand. fold n. unfold b', mu', S1, S2. field. lra. }
    rewrite Eb. replace (n / 2 / (S / 2)) with (n / S) by (field; lra). reflexivity. }
  destruct (normal_bayes prior data N ok) as (post & Epost & _ & (inner & ev & Hev & Hi & Ii & Hp) & _).
  assert (ev = c) as -> by (now apply (Uniq inner)).
  destruct prior as [[mu a b di onu]|[mu nu a b]]; cbn [normal_prior_ok NormalInverseGamma_nu NormalInverseGamma_alpha NormalInverseGamma_beta NormalInverseGamma_mu NormalInverseGamma_delta_inverse NormalGamma_mu NormalGamma_lam NormalGamma_alpha NormalGamma_beta] in *.
  - destruct ok as (-> & (nu & -> & Hnu) & Ha & Hb). destruct (Facts mu nu a b Hnu Ha Hb) as (Hb' & HK & Hsq & Hf).
    eexists. split; [exact HK|]. split; [exact Hf|]. exists e, c. split; [exact E|]. split; [exact Hc|]. intros m v Hv.
    injection Epost as <-. cbn [precision_of].
    eapply nig_ratio; try eassumption; try lra; [apply Hsq|]. exact (Hp m v).
  - destruct ok as (Hnu & Ha & Hb). destruct (Facts mu nu a b Hnu Ha Hb) as (Hb' & HK & Hsq & Hf).
    eexists. split; [exact HK|]. split; [exact Hf|]. exists e, c. split; [exact E|]. split; [exact Hc|]. intros m v Hv.
    injection Epost as <-. cbn [precision_of].
    eapply ng_ratio; try eassumption; try lra; [apply Hsq|]. exact (Hp m v).
Qed.

Lemma precision_pos v : 0 < v -> 0 < precision_of prior v.
Proof. destruct prior; cbn; [apply Rinv_0_lt_compat|auto]. Qed.

Lemma normal_joint_regret : regret_at_most_for lik update predict (fun p => 0 < snd p) prior (normal_joint_factor prior) not_all_equal.
Proof.
  intros data (x & y & Hx & Hy & D). assert (N : data <> []) by (intros ->; destruct Hx).
  destruct (normal_closed data N) as (K & HK & Hf & e & c & E & Hc & H). exists e, c. split; [exact E|]. intros [m v] Hv. cbn [snd] in Hv.
  pose proof (scatter_spread (sumR data / INR (length data)) data x y Hx Hy D) as HS.
  rewrite <- (Hf _ HS eq_refl), (H m v Hv). apply Rmult_le_compat_r; [lra|]. apply Rmult_le_compat_l; [lra|].
  pose proof (precision_pos v Hv) as Hp. pose proof (pos_INR (length data)) as Hn.
  eapply Rle_trans; [|apply (kernel_le (INR (length data) / 2) (scatter (sumR data / INR (length data)) data / 2) (precision_of prior v)); lra].
  apply Rmult_le_compat_l; [left; apply exp_pos|]. apply exp_mono. apply Ropp_le_contravar, Rmult_le_compat_r; [lra|].
  rewrite (scatter_shift m data N). pose proof (pow2_ge_0 (m - sumR data / INR (length data))). nra.
Qed.

Lemma normal_joint_regret_exact : regret_exact lik update predict (fun p => 0 < snd p) (fun _ => True) prior (normal_joint_factor prior) not_all_equal.
Proof.
  intros data _ (x & y & Hx & Hy & D). assert (N : data <> []) by (intros ->; destruct Hx).
  destruct (normal_closed data N) as (K & HK & Hf & e & c & E & Hc & H).
  set (m := sumR data / INR (length data)) in *.
  pose proof (scatter_spread m data x y Hx Hy D) as HS.
  assert (Hn : 0 < INR (length data)). { apply lt_0_INR. destruct data; [congruence|simpl; lia]. }
  assert (Ht : 0 < INR (length data) / 2 / (scatter m data / 2)) by (apply Rdiv_lt_0_compat; lra).
  set (v := match prior with PNIG _ => / (INR (length data) / 2 / (scatter m data / 2)) | PNG _ => INR (length data) / 2 / (scatter m data / 2) end).
  assert (Ev : precision_of prior v = INR (length data) / 2 / (scatter m data / 2)). { unfold v, precision_of. destruct prior; [now rewrite Rinv_inv|reflexivity]. }
  assert (Hv : 0 < v). { unfold v. destruct prior; [now apply Rinv_0_lt_compat|exact Ht]. }
  exists (m, v). split; [exact Hv|]. exists e, c. split; [exact E|]. split; [exact Hc|].
  rewrite (H m v Hv), Ev, <- (Hf _ HS eq_refl). do 4 f_equal. field. lra.
Qed.
End Normal.
