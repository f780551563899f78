(** Gaussian likelihoods under inverse Wishart and normal-inverse-Wishart priors. *)

From Coq Require Import Reals Lra.
From Coquelicot Require Import Coquelicot.
From mathcomp Require Import all_ssreflect all_algebra.
From Verif Require Import Spec.Special Analysis.RealAux Analysis.GammaBeta Analysis.GammaFacts.
From Verif Require Import Analysis.RField Spec.Matrices Spec.Wishart Analysis.Posdef Analysis.MultiGauss Analysis.Regression Analysis.MvnBayes Analysis.InvWishart.
Delimit Scope R_scope with Re.

Set Implicit Arguments.
Unset Strict Implicit.
Unset Printing Implicit Defensive.
Import GRing.Theory.
Local Open Scope ring_scope.

(** scatter of the observations around a point *)
Definition scat n (xs : list 'cV[R]_n) (m : 'cV[R]_n) : 'M[R]_n := \sum_(x <- xs) (x - m) *m (x - m)^T.
Lemma scat_cons n x (xs : list 'cV[R]_n) m : scat (x :: xs) m = (x - m) *m (x - m)^T + scat xs m.
Proof. by rewrite /scat big_cons. Qed.
Lemma dsum_cons n (P : 'M[R]_n) x xs m : dsum P (x :: xs) m = (quad P (x - m)%R + dsum P xs m)%Re.
Proof. by rewrite /dsum big_cons. Qed.
Lemma tr_outer n (P : 'M[R]_n) (w : 'cV[R]_n) : \tr (w *m w^T *m P) = quad P w.
Proof. by rewrite mxtrace_mulC tr_quad. Qed.
Lemma tr_scat n (P : 'M[R]_n) xs m : \tr (scat xs m *m P) = dsum P xs m.
Proof.
  elim: xs => [|x xs IH].
  - by rewrite /scat /dsum !big_nil mul0mx mxtrace0.
  - by rewrite scat_cons dsum_cons mulmxDl raddfD /= IH tr_outer.
Qed.
Lemma quad_outer n (d v : 'cV[R]_n) : quad (d *m d^T) v = ((d^T *m v) 0%R 0%R ^ 2)%Re.
Proof.
  rewrite /quad -!mulmxA mulmxA [LHS]mxE big_ord_recl big_ord0 addr0.
  have ->: (v^T *m d) 0 0 = (d^T *m v) 0 0 by rewrite -mx11_tr trmx_mul trmxK.
  have E (x : R) : x * x = (x ^ 2)%Re by toR; ring. exact: E.
Qed.
Lemma quad_outer_nonneg n (d v : 'cV[R]_n) : (0 <= quad (d *m d^T) v)%Re.
Proof. rewrite quad_outer. exact: pow2_ge_0. Qed.
Lemma outer_sym n (d : 'cV[R]_n) : (d *m d^T)^T = d *m d^T.
Proof. by rewrite trmx_mul trmxK. Qed.
Lemma scat_sym n (xs : list 'cV[R]_n) m : (scat xs m)^T = scat xs m.
Proof.
  elim: xs => [|x xs IH]; first by rewrite /scat big_nil trmx0.
  by rewrite scat_cons raddfD /= IH outer_sym.
Qed.
Lemma scat_nonneg n (xs : list 'cV[R]_n) m v : (0 <= quad (scat xs m) v)%Re.
Proof.
  elim: xs => [|x xs IH].
  - rewrite /scat big_nil /quad mulmx0 mul0mx mxE RzeroE. exact: Rle_refl.
  - rewrite scat_cons quadDA. apply: Rplus_le_le_0_compat => //. exact: quad_outer_nonneg.
Qed.

(** ** Known mean *)
Section KnownMean.
Variables (n : nat) (mu : 'cV[R]_n) (xs : list 'cV[R]_n) (nu : R) (psi : 'M[R]_n).
Hypotheses (PP : posdef psi) (Hnu : (INR n - 1 < nu)%Re).
Let N := INR (size xs).
Definition psi_km : 'M[R]_n := psi + scat xs mu.
Lemma psi_km_posdef : posdef psi_km.
Proof. apply: posdef_add => //; [exact: scat_sym | exact: scat_nonneg]. Qed.
Lemma HN : (0 <= N)%Re. Proof. exact: pos_INR. Qed.

Lemma mvn_const_pow (S : 'M[R]_n) k : posdef S ->
  (mvn_const S ^ k = Rpower (2 * PI) (INR n * INR k / 2) * Rpower (\det S) (INR k / 2))%Re.
Proof.
  move=> PS. have HS := det_pos PS. have Hpi := PI_RGT_0.
  rewrite /mvn_const. have Hp : (0 < (2 * PI) ^ n)%Re by apply: pow_lt; lra.
  rewrite sqrt_mult_alt; last lra. rewrite Rpow_mult_distr sqrt_pow_Rpower; last lra.
  rewrite -(Rpower_sqrt (\det S)) //.
  rewrite -!Rpower_pow; [|exact: Rpower_pos..]. rewrite !Rpower_mult.
  congr (Rpower _ _ * Rpower _ _)%Re; field.
Qed.

Lemma km_kernel S : posdef S ->
  (iw_kernel nu psi S * mvn_lik S xs mu =
   / Rpower (2 * PI) (INR n * N / 2) * iw_kernel (nu + N) psi_km S)%Re.
Proof.
  move=> PS. rewrite mvn_lik_eq mvn_const_pow // /iw_kernel /psi_km mulmxDl raddfD /= tr_scat RplusE.
  have H1 := Rpower_pos (2 * PI) (INR n * N / 2). have H2 := Rpower_pos (\det S) (N / 2).
  have ->: (- ((\tr (psi *m invmx S)%R + dsum (invmx S) xs mu) / 2) =
    - (\tr (psi *m invmx S)%R / 2) + - (dsum (invmx S) xs mu / 2))%Re by field.
  rewrite exp_plus.
  have ->: (- ((nu + N + INR n + 1) / 2) = - ((nu + INR n + 1) / 2) - N / 2)%Re by field.
  rewrite Rpower_minus -/N. field. lra.
Qed.
Definition km_evid : R := (/ Rpower (2 * PI) (INR n * N / 2) * (iw_const (nu + N) psi_km / iw_const nu psi))%Re.
Lemma km_Hnu : (INR n - 1 < nu + N)%Re. Proof. have := HN. lra. Qed.
Lemma km_evid_pos : (0 < km_evid)%Re.
Proof.
  rewrite /km_evid. apply: Rmult_lt_0_compat; first by apply: Rinv_0_lt_compat; exact: Rpower_pos.
  apply: Rdiv_lt_0_compat; apply: iw_const_pos => //. exact: km_Hnu.
Qed.
Lemma km_prod S : posdef S ->
  (iw_pdf nu psi S * mvn_lik S xs mu = km_evid * iw_pdf (nu + N) psi_km S)%Re.
Proof.
  move=> PS. have PK := psi_km_posdef. have H' := km_Hnu.
  rewrite (iw_pdf_eq S PP Hnu) (iw_pdf_eq S PK H') /km_evid.
  have H1 := iw_const_pos psi Hnu. have H2 := iw_const_pos psi_km H'.
  have K := km_kernel PS. have H3 := Rpower_pos (2 * PI) (INR n * N / 2).
  transitivity ((iw_kernel nu psi S * mvn_lik S xs mu) / iw_const nu psi)%Re; first by field; lra.
  rewrite K. field. lra.
Qed.
Lemma km_bayes : cone_posterior (iw_pdf nu psi) (fun S => mvn_lik S xs mu) (iw_pdf (nu + N)%Re psi_km).
Proof.
  have E0 := km_evid_pos. exists km_evid. split=> //. split.
  - have := is_cone_int_scal km_evid (iw_normalised psi_km_posdef km_Hnu). rewrite Rmult_1_r.
    apply: is_cone_int_ext => S PS. by rewrite km_prod.
  - move=> S PS. rewrite km_prod //. field. lra.
Qed.
End KnownMean.

(** ** Unknown mean *)
Section UnknownMean.
Variables (n : nat) (mu : 'cV[R]_n) (k nu : R) (psi : 'M[R]_n) (xs : list 'cV[R]_n).
Hypotheses (PP : posdef psi) (Hnu : (INR n - 1 < nu)%Re) (Hk : (0 < k)%Re) (Hxs : xs <> [::]).
Let N := INR (size xs).
Definition xbar : 'cV[R]_n := (/ N)%Re *: vsum xs.
Definition k_niw : R := (k + N)%Re.
Definition mu_niw : 'cV[R]_n := (/ k_niw)%Re *: (k *: mu + N *: xbar).
Definition psi_niw : 'M[R]_n := psi + scat xs xbar + (N * k / k_niw)%Re *: ((xbar - mu) *m (xbar - mu)^T).
Lemma N_pos : (0 < N)%Re.
Proof. rewrite /N. case: xs Hxs => [//|x l _]. apply: lt_0_INR. exact: PeanoNat.Nat.lt_0_succ. Qed.
Lemma vsum_xbar : vsum xs = N *: xbar.
Proof.
  have H := N_pos. rewrite /xbar scalerA.
  have ->: N * (/ N)%Re = 1 by (toR; rewrite Rinv_r //; lra). by rewrite scale1r.
Qed.
Lemma k_niw_pos : (0 < k_niw)%Re. Proof. have := N_pos. rewrite /k_niw. lra. Qed.
Lemma psi_niw_posdef : posdef psi_niw.
Proof.
  have H := N_pos. have H' := k_niw_pos.
  apply: posdef_add; first apply: posdef_add => //.
  - exact: scat_sym.
  - exact: scat_nonneg.
  - by rewrite linearZ /= outer_sym.
  - move=> v. rewrite quadZA. apply: Rmult_le_pos; last exact: quad_outer_nonneg.
    apply: Rlt_le. apply: Rdiv_lt_0_compat => //. exact: Rmult_lt_0_compat.
Qed.
Lemma niw_Hnu : (INR n - 1 < nu + N)%Re. Proof. have := N_pos. lra. Qed.

Lemma niw_square P t : posdef P ->
  (k * quad P (t - mu)%R + dsum P xs t = k_niw * quad P (t - mu_niw)%R + \tr ((psi_niw - psi) *m P)%R)%Re.
Proof.
  move=> PD. have S := posdef_sym PD. have HN := N_pos. have Hk' := k_niw_pos.
  have ->: \tr ((psi_niw - psi) *m P) = (dsum P xs xbar + N * k / k_niw * quad P (xbar - mu)%R)%Re.
  { rewrite /psi_niw -(addrA psi) addrC addKr mulmxDl raddfD /= tr_scat -scalemxAl linearZ /= tr_outer. by []. }
  have V := vsum_xbar. rewrite /mu_niw. move: xbar V => xb V.
  rewrite !(dsum_expand _ _ S) V !quad_sub // !bilZl -[bil P xb xb]/(quad P xb).
  rewrite bilZr bilDr !bilZr quadZ quad_add // !quadZ bilZl bilZr.
  rewrite (bilC xb t S) (bilC mu xb S) -/N.
  move: (quad P xb) (quad P mu) (quad P t) (bil P t mu) (bil P t xb) (bil P xb mu) (qsum P xs) => a1 a2 a3 a4 a5 a6 a7.
  rewrite /k_niw in Hk' *. toR. field. lra.
Qed.
Definition niw_ratio : R := (sqrt (k ^ n) / sqrt (k_niw ^ n))%Re.
Definition niw_evid : R :=
  (niw_ratio * / Rpower (2 * PI) (INR n * N / 2) * (iw_const (nu + N) psi_niw / iw_const nu psi))%Re.
Lemma niw_ratio_pos : (0 < niw_ratio)%Re.
Proof. have H := k_niw_pos. apply: Rdiv_lt_0_compat; apply: sqrt_lt_R0; exact: pow_lt. Qed.
Lemma niw_evid_pos : (0 < niw_evid)%Re.
Proof.
  rewrite /niw_evid. apply: Rmult_lt_0_compat; first apply: Rmult_lt_0_compat.
  - exact: niw_ratio_pos.
  - by apply: Rinv_0_lt_compat; exact: Rpower_pos.
  - apply: Rdiv_lt_0_compat; apply: iw_const_pos => //. exact: niw_Hnu.
Qed.
Lemma mvn_pdf_over (m t : 'cV[R]_n) S c : posdef S -> (0 < c)%Re ->
  mvn_pdf m ((/ c)%Re *: S) t = (sqrt (c ^ n) * exp (- (c * quad (invmx S) (t - m)%R / 2)) / mvn_const S)%Re.
Proof.
  move=> PS Hc. have HS := det_pos PS. have Hpi := PI_RGT_0. have Hi := Rinv_0_lt_compat _ Hc.
  rewrite /mvn_pdf inv_scale // quadZA Rinv_inv det_scale /mvn_const.
  have H1 : (0 < c ^ n)%Re by exact: pow_lt. have H2 : (0 < (2 * PI) ^ n)%Re by apply: pow_lt; lra.
  rewrite (Rinv_pow_pos n Hc).
  have ->: ((2 * PI) ^ n * (/ c ^ n * \det S) = (2 * PI) ^ n * \det S / c ^ n)%Re by field; lra.
  rewrite sqrt_div_alt //.
  have H3 : sqrt ((2 * PI) ^ n * \det S) <> 0%Re by apply: sqrt_nz; exact: Rmult_lt_0_compat.
  have H4 := sqrt_nz H1. field. by split.
Qed.
Lemma niw_prod t S : posdef S ->
  (niw_pdf mu k nu psi t S * mvn_lik2 xs t S = niw_evid * niw_pdf mu_niw k_niw (nu + N) psi_niw t S)%Re.
Proof.
  move=> PS. have PK := psi_niw_posdef. have H' := niw_Hnu. have Hk' := k_niw_pos. have HS := det_pos PS.
  rewrite /niw_pdf /mvn_lik2 (iw_pdf_eq S PP Hnu) (iw_pdf_eq S PK H') /niw_evid !mvn_pdf_over // mvn_lik_eq mvn_const_pow //.
  have H1 := iw_const_pos psi Hnu. have H2 := iw_const_pos psi_niw H'. rewrite -/N.
  have H3 := Rpower_pos (2 * PI) (INR n * N / 2). have H4 := Rpower_pos (\det S) (N / 2).
  have H5 : (0 < mvn_const S)%Re by exact: mvn_const_pos.
  have H6 : sqrt (k_niw ^ n) <> 0%Re by apply: sqrt_nz; exact: pow_lt.
  have E : (exp (- (k * quad (invmx S) (t - mu)%R / 2)) * exp (- (dsum (invmx S) xs t / 2)) * iw_kernel nu psi S
     = exp (- (k_niw * quad (invmx S) (t - mu_niw)%R / 2)) * iw_kernel (nu + N) psi_niw S * Rpower (\det S) (N / 2))%Re.
  { rewrite /iw_kernel.
    have ->: (- ((nu + N + INR n + 1) / 2) = - ((nu + INR n + 1) / 2) - N / 2)%Re by field.
    rewrite Rpower_minus.
    have T : (\tr (psi_niw *m invmx S)%R = \tr (psi *m invmx S)%R + \tr ((psi_niw - psi) *m invmx S)%R)%Re.
    { rewrite mulmxBl raddfB /=. have E0 (x y : R) : x = (y + (x - y))%Re by ring. exact: E0. }
    have Q := niw_square t (posdef_inv PS).
    transitivity (Rpower (\det S) (- ((nu + INR n + 1) / 2)) *
      exp (- ((k * quad (invmx S) (t - mu)%R + dsum (invmx S) xs t) / 2) + - (\tr (psi *m invmx S)%R / 2)))%Re.
    - rewrite exp_plus.
      have ->: (- ((k * quad (invmx S) (t - mu)%R + dsum (invmx S) xs t) / 2) =
         - (k * quad (invmx S) (t - mu)%R / 2) + - (dsum (invmx S) xs t / 2))%Re by field.
      rewrite exp_plus. ring.
    - rewrite Q T.
      have ->: (- ((k_niw * quad (invmx S) (t - mu_niw)%R + \tr ((psi_niw - psi) *m invmx S)%R) / 2) + - (\tr (psi *m invmx S)%R / 2)
         = - (k_niw * quad (invmx S) (t - mu_niw)%R / 2) + - ((\tr (psi *m invmx S)%R + \tr ((psi_niw - psi) *m invmx S)%R) / 2))%Re by field.
      rewrite exp_plus. field. lra. }
  transitivity (sqrt (k ^ n) / mvn_const S / iw_const nu psi / Rpower (2 * PI) (INR n * N / 2) / Rpower (\det S) (N / 2)
    * (exp (- (k * quad (invmx S) (t - mu)%R / 2)) * exp (- (dsum (invmx S) xs t / 2)) * iw_kernel nu psi S))%Re.
  - field. lra.
  - rewrite E /niw_ratio. field. repeat split; first [exact: H6 | lra].
Qed.
Lemma niw_inner m c v (ps S : 'M[R]_n) : posdef S -> (0 < c)%Re ->
  is_vec_int (fun t => niw_pdf m c v ps t S) (iw_pdf v ps S).
Proof.
  move=> PS Hc. have Hi := Rinv_0_lt_compat _ Hc.
  have := is_vec_int_scal (iw_pdf v ps S) (mvn_normalised m (posdef_scale Hi PS)). rewrite Rmult_1_r.
  apply: is_vec_int_ext => t. by rewrite /niw_pdf Rmult_comm.
Qed.
Lemma niw_evidence : is_cone_int (fun S => (niw_evid * iw_pdf (nu + N) psi_niw S)%Re) niw_evid.
Proof.
  have := is_cone_int_scal niw_evid (iw_normalised psi_niw_posdef niw_Hnu). by rewrite Rmult_1_r.
Qed.
Lemma niw_bayes : cone_posterior2 (niw_pdf mu k nu psi) (mvn_lik2 xs) (niw_pdf mu_niw k_niw (nu + N)%Re psi_niw).
Proof.
  have E0 := niw_evid_pos. exists (fun S => (niw_evid * iw_pdf (nu + N) psi_niw S)%Re), niw_evid.
  split=> //. split; [|split].
  - move=> S PS. apply: (is_vec_int_ext _ (is_vec_int_scal niw_evid (niw_inner mu_niw (nu + N) psi_niw PS k_niw_pos))) => t.
    by rewrite niw_prod.
  - exact: niw_evidence.
  - move=> t S PS. rewrite niw_prod //. field. lra.
Qed.
Lemma niw_marginal : cone_marginal2 (niw_pdf mu k nu psi) (mvn_lik2 xs) niw_evid.
Proof.
  exists (fun S => (niw_evid * iw_pdf (nu + N) psi_niw S)%Re). split; last exact: niw_evidence.
  move=> S PS. apply: (is_vec_int_ext _ (is_vec_int_scal niw_evid (niw_inner mu_niw (nu + N) psi_niw PS k_niw_pos))) => t.
  by rewrite -niw_prod // Rmult_comm.
Qed.
End UnknownMean.

(** ** Predictive of one observation *)
Lemma multigamma_half n a :
  (multigamma n (a + /2) * Gamma_fun (a + /2 - INR n / 2) = multigamma n a * Gamma_fun (a + /2))%Re.
Proof.
  elim: n a => [|n IH] a.
  - rewrite /multigamma !big_ord0 /=. by have ->: (a + / 2 - 0 / 2 = a + /2)%Re by field.
  - rewrite !multigamma_S S_INR.
    have ->: (a + / 2 - / 2 = a)%Re by ring.
    have ->: (a + / 2 - (INR n + 1) / 2 = a - INR n / 2)%Re by field.
    have := IH (a - /2)%Re. have ->: (a - / 2 + / 2 = a)%Re by ring. move=> H.
    transitivity (Rpower PI (INR n / 2) * Gamma_fun (a + / 2) * (multigamma n a * Gamma_fun (a - INR n / 2)))%Re; first by ring.
    rewrite H. ring.
Qed.

Lemma det_rank1 n (A : 'M[R]_n) (d : 'cV[R]_n) c : posdef A -> (0 <= c)%Re ->
  \det (A + c *: (d *m d^T)) = (\det A * (1 + c * quad (invmx A) d))%Re.
Proof.
  move=> PA Hc. set X : 'M[R]_(1, n) := sqrt c *: d^T.
  have XT : X^T = sqrt c *: d by apply/matrixP => i j; rewrite !mxE.
  have := sylvester X PA. rewrite /W /D_post XT.
  have ->: sqrt c *: d *m X = c *: (d *m d^T).
  { rewrite /X -scalemxAl -scalemxAr scalerA. congr (_ *: _). exact: sqrt_sqrt. }
  rewrite [_ + A]addrC => <-. congr (_ * _)%Re.
  rewrite det_mx11 mxE [1%:M 0 0]mxE /=. congr (_ + _).
  rewrite /X -!scalemxAl -!scalemxAr scalerA.
  rewrite -[LHS]/(((sqrt c * sqrt c) *: (d^T *m invmx A *m d)) 0 0) mxE. congr (_ * _). exact: sqrt_sqrt.
Qed.

Section PredictiveOne.
Variables (n : nat) (mu : 'cV[R]_n) (k nu : R) (psi : 'M[R]_n) (x : 'cV[R]_n).
Hypotheses (PP : posdef psi) (Hnu : (INR n - 1 < nu)%Re) (Hk : (0 < k)%Re).
Definition df_niw : R := (nu - INR n + 1)%Re.
Definition scale_niw : 'M[R]_n := ((k + 1) / (k * df_niw))%Re *: psi.
Lemma xbar_one : xbar [:: x] = x.
Proof.
  rewrite /xbar /vsum big_seq1 /=. have ->: (/ 1 = 1)%Re by field. exact: scale1r.
Qed.
Lemma psi_niw_one : psi_niw mu k psi [:: x] = psi + (k / (k + 1))%Re *: ((x - mu) *m (x - mu)^T).
Proof.
  rewrite /psi_niw xbar_one scat_cons /scat big_nil addr0 subrr mul0mx addr0 /k_niw -[INR (size [:: x])]/1%Re.
  by rewrite Rmult_1_l.
Qed.
Lemma niw_evid_one : niw_evid mu k nu psi [:: x] = mvt_pdf mu scale_niw df_niw x.
Proof.
  have Hpsi := det_pos PP. have Hpi := PI_RGT_0. have Hn := pos_INR n.
  have Hdf : (0 < df_niw)%Re by rewrite /df_niw; lra.
  set q := quad (invmx psi) (x - mu).
  have Hq : (0 <= q)%Re by apply: quad_nonneg; exact: posdef_inv.
  have Hc : (0 < k / (k + 1))%Re by apply: Rdiv_lt_0_compat; lra.
  set r := (1 + k / (k + 1) * q)%Re.
  have Hr : (0 < r)%Re.
  { rewrite /r. have : (0 <= k / (k + 1) * q)%Re by apply: Rmult_le_pos; lra. lra. }
  set w := ((k + 1) / (k * df_niw))%Re.
  have Hw : (0 < w)%Re by apply: Rdiv_lt_0_compat; [lra | exact: Rmult_lt_0_compat].
  rewrite /niw_evid /iw_const psi_niw_one det_rank1 //; last lra. rewrite -/q -/r.
  rewrite /mvt_pdf /scale_niw -/w inv_scale // quadZA -/q det_scale.
  have ->: (1 + / w * q / df_niw = r)%Re.
  { rewrite /r /w. field. lra. }
  have ->: ((df_niw + INR n) / 2 = (nu + 1) / 2)%Re by rewrite /df_niw; field.
  rewrite /niw_ratio /k_niw -[INR (size [:: x])]/1%Re.
  have Hk1 : (0 < k + 1)%Re by lra.
  rewrite (sqrt_pow_Rpower n Hk) (sqrt_pow_Rpower n Hk1).
  have ->: (INR n * 1 / 2 = INR n / 2)%Re by field.
  have ->: ((nu + 1) * INR n / 2 = nu * INR n / 2 + INR n / 2)%Re by field.
  rewrite Rpower_plus.
  have MG := multigamma_half n (nu / 2)%Re.
  have E1: (nu / 2 + / 2 = (nu + 1) / 2)%Re by field. rewrite E1 in MG.
  have E2 : ((nu + 1) / 2 - INR n / 2 = df_niw / 2)%Re by rewrite /df_niw; field. rewrite E2 in MG.
  have G1 : (0 < multigamma n (nu / 2))%Re by apply: multigamma_pos; lra.
  have G2 : (0 < Gamma_fun (df_niw / 2))%Re by apply: Gamma_fun_pos; lra.
  have ->: multigamma n ((nu + 1) / 2) = (multigamma n (nu / 2) * Gamma_fun ((nu + 1) / 2) / Gamma_fun (df_niw / 2))%Re.
  { rewrite -MG. field. lra. }
  have P1 : (0 < (df_niw * PI) ^ n * w ^ n)%Re by apply: Rmult_lt_0_compat; apply: pow_lt => //; exact: Rmult_lt_0_compat.
  have ->: ((df_niw * PI) ^ n * (w ^ n * \det psi) = (df_niw * PI * w) ^ n * \det psi)%Re by rewrite (Rpow_mult_distr (df_niw * PI) w n); ring.
  have ->: (df_niw * PI * w = (k + 1) / k * PI)%Re by rewrite /w; field; lra.
  have Hkk : (0 < (k + 1) / k)%Re by apply: Rdiv_lt_0_compat; lra.
  have Hkp : (0 < (k + 1) / k * PI)%Re by exact: Rmult_lt_0_compat.
  rewrite sqrt_mult_alt; last by apply: Rlt_le; exact: pow_lt.
  rewrite sqrt_pow_Rpower // -(Rpower_sqrt (\det psi)) //.
  have H2 : (0 < 2)%Re by lra.
  rewrite (Rpower_mult_base (\det psi) r) // (Rpower_mult_base 2 PI) // (Rpower_mult_base ((k + 1) / k) PI) //.
  rewrite (Rpower_div_base (k + 1) k) //.
  have ->: ((nu + 1) / 2 = nu / 2 + /2)%Re by field.
  rewrite (Rpower_plus (nu / 2) (/ 2) (\det psi)) Rpower_opp_base.
  have A1 := Rpower_pos (\det psi) (nu / 2). have A2 := Rpower_pos (\det psi) (/ 2).
  have A3 := Rpower_pos r (nu / 2 + / 2). have A4 := Rpower_pos k (INR n / 2).
  have A5 := Rpower_pos (k + 1) (INR n / 2). have A6 := Rpower_pos 2 (INR n / 2).
  have A7 := Rpower_pos PI (INR n / 2). have A8 := Rpower_pos 2 (nu * INR n / 2).
  field. repeat split; lra.
Qed.
End PredictiveOne.
