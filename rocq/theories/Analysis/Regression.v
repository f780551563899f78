(** Bayesian linear regression in matrix form: completing the square, the
    Woodbury and Sylvester identities, normalisation. *)

From Coq Require Import Reals Lra.
From Coquelicot Require Import Coquelicot.
From mathcomp Require Import all_ssreflect all_algebra.
From Verif Require Import Spec.Special Analysis.Improper Analysis.RealAux Analysis.GammaBeta Analysis.GammaFacts Analysis.Gauss.
From Verif Require Import Model.ScipyDist Spec.Densities Proofs.Pdfs Proofs.Joint.
From Verif Require Import Analysis.RField Spec.Matrices Analysis.Posdef Analysis.MultiGauss.
Delimit Scope R_scope with Re.

Set Implicit Arguments.
Unset Strict Implicit.
Unset Printing Implicit Defensive.
Import GRing.Theory.
Local Open Scope ring_scope.

Lemma det_inv_pos n (A : 'M[R]_n) : posdef A -> \det (invmx A) = (/ \det A)%Re.
Proof. by move=> H; rewrite det_inv RinvE. Qed.
Lemma det_scale n (c : R) (A : 'M[R]_n) : \det (c *: A) = (c ^ n * \det A)%Re.
Proof. by rewrite detZ RexpE. Qed.
Lemma inv_scale n (c : R) (A : 'M[R]_n) : (0 < c)%Re -> posdef A -> invmx (c *: A) = (/ c)%Re *: invmx A.
Proof.
  move=> Hc PD. rewrite invmxZ ?RinvE //. apply: posdef_unit. exact: posdef_scale.
Qed.

Lemma mvn_const_pos n (cov : 'M[R]_n) : posdef cov -> (0 < sqrt ((2 * PI) ^ n * \det cov))%Re.
Proof.
  move=> PD. apply: sqrt_lt_R0. apply: Rmult_lt_0_compat; last exact: det_pos.
  apply: pow_lt. have := PI_RGT_0. lra.
Qed.
Lemma mvn_pdf_pos n (mu : 'cV[R]_n) cov x : posdef cov -> (0 < mvn_pdf mu cov x)%Re.
Proof.
  move=> PD. apply: Rdiv_lt_0_compat; [exact: exp_pos | exact: mvn_const_pos].
Qed.
Lemma mvn_normalised n (mu : 'cV[R]_n) cov : posdef cov -> is_vec_int (mvn_pdf mu cov) 1%Re.
Proof.
  move=> PD. have H := is_vec_int_scal (/ sqrt ((2 * PI) ^ n * \det cov))%Re
                         (is_vec_int_gauss mu (posdef_inv PD)).
  have Hc := mvn_const_pos PD.
  rewrite det_inv_pos // in H. have Hd := det_pos PD.
  have E : (((2 * PI) ^ n / / \det cov) = (2 * PI) ^ n * \det cov)%Re by field; lra.
  rewrite E Rinv_l in H; last lra.
  apply: (is_vec_int_ext _ H) => v. rewrite /mvn_pdf /Rdiv. ring.
Qed.

(** the density with covariance v D^-1, in the exponent's form *)
Lemma mvn_pdf_scaled n (mu : 'cV[R]_n) Di v t : (0 < v)%Re -> posdef Di ->
  mvn_pdf mu (v *: Di) t =
  (exp (- (quad (invmx Di) (t - mu)%R / (2 * v))) / sqrt ((2 * PI * v) ^ n * \det Di))%Re.
Proof.
  move=> Hv PD. rewrite /mvn_pdf inv_scale // det_scale quadZA. f_equal.
  - f_equal. field. lra.
  - f_equal. rewrite (Rpow_mult_distr (2 * PI) v). ring.
Qed.

Lemma sqrt_pow x n : (0 < x)%Re -> sqrt (x ^ n) = (sqrt x ^ n)%Re.
Proof.
  move=> Hx. elim: n => [|n IH] /=; first exact: sqrt_1.
  rewrite sqrt_mult_alt ?IH //. lra.
Qed.
Lemma sqrt_pow_Rpower x n : (0 < x)%Re -> sqrt (x ^ n) = Rpower x (INR n / 2).
Proof.
  move=> Hx. rewrite -Rpower_sqrt; last exact: pow_lt. rewrite -Rpower_INR // Rpower_mult. f_equal; by [].
Qed.
Lemma Rinv_pow_pos x n : (0 < x)%Re -> ((/ x) ^ n = / (x ^ n))%Re.
Proof. move=> Hx. rewrite Rinv_pow //. lra. Qed.
Lemma prod_const n (c : R) : \prod_(i < n) c = (c ^ n)%Re.
Proof. by rewrite prodr_const card_ord RexpE. Qed.
Lemma prod_exp n (f : 'I_n -> R) : \prod_i exp (f i) = exp (\sum_i f i).
Proof.
  elim: n f => [|n IH] f; first by rewrite !big_ord0 exp_0.
  by rewrite !big_ord_recl IH exp_plus.
Qed.

Lemma regression_lik_eq N n (X : 'M[R]_(N, n)) (y : 'cV[R]_N) t v : (0 < v)%Re ->
  regression_lik X y t v =
  (/ sqrt ((2 * PI * v) ^ N) * exp (- (quad 1%:M (y - X *m t)%R / (2 * v))))%Re.
Proof.
  move=> Hv. rewrite /regression_lik. have Hs : (0 < sqrt v)%Re by exact: sqrt_lt_R0.
  have Hpi := sqrt_2pi_pos. have HPI := PI_RGT_0.
  under eq_bigr do rewrite norm_pdf //.
  rewrite big_split /=. rewrite prod_const prod_exp RmultE. f_equal.
  - have ->: (sqrt v * sqrt (2 * PI) = sqrt (2 * PI * v))%Re.
    { rewrite -sqrt_mult_alt; last lra. f_equal. ring. }
    have Hpv : (0 < 2 * PI * v)%Re by apply: Rmult_lt_0_compat => //; lra.
    rewrite sqrt_pow // Rinv_pow_pos //. exact: sqrt_lt_R0.
  - f_equal. rewrite quad1.
    have G : forall m (g : 'I_m -> R), \sum_i (- (g i) ^ 2 / (2 * sqrt v ^ 2))%Re = (- ((\sum_i (g i * g i))%R / (2 * v)))%Re.
    { elim=> [|m IH] g; first by rewrite !big_ord0 /GRing.zero /=; field; lra.
      rewrite !big_ord_recl IH RplusE. rewrite pow2_sqrt; last lra. toR. field. lra. }
    rewrite -G. apply: eq_bigr => i _. by rewrite !mxE RminusE.
Qed.

Section Square.
Variables (N n : nat) (X : 'M[R]_(N, n)) (y : 'cV[R]_N) (mu : 'cV[R]_n) (D : 'M[R]_n).
Hypothesis PD : posdef D.
Definition D_post : 'M[R]_n := X^T *m X + D.
Definition mu_post : 'cV[R]_n := invmx D_post *m (D *m mu + X^T *m y).
Definition excess : R := (quad 1%:M y + quad D mu - quad D_post mu_post)%Re.

Lemma XtX_quad t : quad (X^T *m X) t = quad 1%:M (X *m t).
Proof. by rewrite -quad_congr mulmx1. Qed.
Lemma D_post_posdef : posdef D_post.
Proof.
  rewrite /D_post addrC. apply: posdef_add => //.
  - by rewrite trmx_mul trmxK.
  - move=> v. rewrite XtX_quad. exact: quad1_nonneg.
Qed.
Let PD' := D_post_posdef.
Let S : D^T = D := posdef_sym PD.
Let S' : D_post^T = D_post := posdef_sym PD'.
Let U' : D_post \in unitmx := posdef_unit PD'.
Let U : D \in unitmx := posdef_unit PD.

Lemma complete_square_mv t :
  (quad D (t - mu)%R + quad 1%:M (y - X *m t)%R = quad D_post (t - mu_post)%R + excess)%Re.
Proof.
  rewrite !quad_sub ?trmx1 // /excess.
  have ->: quad D_post t = (quad 1%:M (X *m t) + quad D t)%Re by rewrite /D_post quadDA XtX_quad.
  have ->: bil D_post t mu_post = (bil D t mu + bil 1%:M y (X *m t)%R)%Re.
  { rewrite /mu_post /bil -mulmxA (mulmxA D_post) mulmxV // mul1mx mulmxDr [LHS]mxE. apply: (f_equal2 Rplus).
    - by rewrite mulmxA.
    - rewrite mulmx1 -mx11_tr !trmx_mul !trmxK. by rewrite mulmxA. }
  ring.
Qed.

Definition W : 'M[R]_N := 1%:M + X *m invmx D *m X^T.
Lemma W_posdef : posdef W.
Proof.
  apply: posdef_add; first exact: posdef1.
  - rewrite -{1 3}[X]trmxK. apply: sym_congr. exact: posdef_sym (posdef_inv PD).
  - move=> v. rewrite -{1}[X]trmxK quad_congr. apply: quad_nonneg. exact: posdef_inv.
Qed.
Lemma woodbury : invmx W = 1%:M - X *m invmx D_post *m X^T.
Proof.
  have UW := posdef_unit W_posdef.
  rewrite -[RHS](mulKmx UW).
  suff ->: W *m (1%:M - X *m invmx D_post *m X^T) = 1%:M by rewrite mulmx1.
  have E : X^T *m X = D_post - D by rewrite /D_post addrK.
  rewrite /W mulmxBr mulmx1 mulmxDl mul1mx.
  have ->: X *m invmx D *m X^T *m (X *m invmx D_post *m X^T) = X *m invmx D *m X^T - X *m invmx D_post *m X^T.
  { rewrite !mulmxA -(mulmxA _ X^T X) E mulmxBr !mulmxBl. f_equal.
    - by rewrite mulmxK.
    - by rewrite -(mulmxA X (invmx D) D) mulVmx // mulmx1. }
  rewrite [X in _ - X]addrC subrK. by rewrite addrK.
Qed.
Lemma mu_post_shift : mu_post = mu + invmx D_post *m (X^T *m (y - X *m mu)).
Proof.
  rewrite /mu_post.
  have ->: D *m mu + X^T *m y = D_post *m mu + X^T *m (y - X *m mu).
  { rewrite /D_post mulmxDl mulmxBr mulmxA. rewrite [X in _ = X + _]addrC -addrA. congr (_ + _).
    by rewrite addrC subrK. }
  by rewrite mulmxDr mulmxA mulVmx // mul1mx.
Qed.
Lemma excess_eq : excess = quad (invmx W) (y - X *m mu).
Proof.
  have := complete_square_mv mu. rewrite subrr quad0 mu_post_shift opprD addrA subrr add0r quadN.
  rewrite -quad_inv //. set r := y - X *m mu.
  have ->: quad (invmx W) r = (quad 1%:M r - quad (invmx D_post) (X^T *m r)%R)%Re.
  { rewrite woodbury quad_bil bilDA. rewrite -(quad_congr (invmx D_post) (X^T)) trmxK.
    rewrite -scaleN1r bilZA. toR. rewrite -!quad_bil. ring. }
  toR. move=> H. lra.
Qed.
Lemma excess_nonneg : (0 <= excess)%Re.
Proof. rewrite excess_eq. apply: quad_nonneg. apply: posdef_inv. exact: W_posdef. Qed.
Lemma sylvester : (\det D * \det W = \det D_post)%Re.
Proof.
  pose M : 'M[R]_(N + n) := block_mx 1%:M (- X) X^T D.
  have E1 : \det M = \det D_post.
  { have: \det (block_mx 1%:M 0 (- X^T) 1%:M *m M) = \det M by rewrite det_mulmx det_lblock !det1 !mul1r.
    move=> <-. rewrite /M mulmx_block !mul1mx !mul0mx !addr0 mulmx1 mulNmx mulmxN opprK addNr.
    by rewrite det_ublock det1 mul1r. }
  have E2 : \det M = (\det D * \det W)%Re.
  { have: \det (block_mx 1%:M (X *m invmx D) 0 1%:M *m M) = \det M by rewrite det_mulmx det_ublock !det1 !mul1r.
    move=> <-. rewrite /M mulmx_block !mul1mx !mul0mx !add0r.
    rewrite -(mulmxA X (invmx D) D) mulVmx // mulmx1 addNr det_lblock. by rewrite mulrC. }
  by rewrite -E1 E2.
Qed.
End Square.

Section Bayes.
Variables (N n : nat) (X : 'M[R]_(N, n)) (y : 'cV[R]_N) (mu : 'cV[R]_n) (Di : 'M[R]_n) (a b : R).
Hypotheses (PD : posdef Di) (Ha : (0 < a)%Re) (Hb : (0 < b)%Re).
Let D := invmx Di.
Let PDD : posdef D := posdef_inv PD.
Let Di' := invmx (D_post X D).
Let mu' := mu_post X y mu D.
Definition a_post : R := (a + INR N / 2)%Re.
Definition b_post : R := (b + excess X y mu D / 2)%Re.

Lemma a_post_pos : (0 < a_post)%Re.
Proof. rewrite /a_post. have := pos_INR N. lra. Qed.
Lemma b_post_pos : (0 < b_post)%Re.
Proof. rewrite /b_post. have := excess_nonneg X y mu PDD. lra. Qed.
Lemma Di_post_posdef : posdef Di'.
Proof. apply: posdef_inv. exact: D_post_posdef. Qed.

Definition evid : R :=
  (/ Rpower (2 * PI) (INR N / 2) * (sqrt (\det Di') / sqrt (\det Di))
   * (Rpower b a / Gamma_fun a) * (Gamma_fun a_post / Rpower b_post a_post))%Re.
Lemma evid_pos : (0 < evid)%Re.
Proof.
  rewrite /evid. repeat apply: Rmult_lt_0_compat; try apply: Rinv_0_lt_compat;
    try exact: Rpower_pos; try apply: sqrt_lt_R0; try exact: det_pos; try exact: Gamma_fun_pos.
  - apply: det_pos. exact: Di_post_posdef.
  - apply: Gamma_fun_pos. exact: a_post_pos.
Qed.

Lemma regression_kernel t v : (0 < v)%Re ->
  (mv_nig_pdf mu Di a b t v * regression_lik X y t v = evid * mv_nig_pdf mu' Di' a_post b_post t v)%Re.
Proof.
  move=> Hv. have HPI := PI_RGT_0. have Ha' := a_post_pos. have Hb' := b_post_pos.
  have PD' := Di_post_posdef.
  rewrite /mv_nig_pdf !mvn_pdf_scaled // regression_lik_eq // !invgamma_pdf //.
  have ->: invmx Di' = D_post X D by rewrite /Di' invmxK.
  rewrite -/D. have E := complete_square_mv X y mu PDD t. rewrite -/mu' in E.
  set q1 := quad D (t - mu) in E *. set q2 := quad 1%:M (y - X *m t) in E *.
  set q' := quad (D_post X D) (t - mu') in E *.
  have Hd := det_pos PD. have Hd' := det_pos PD'. set d := \det Di in Hd *. set d' := \det Di' in Hd' *.
  have Hpv : (0 < 2 * PI * v)%Re by apply: Rmult_lt_0_compat => //; lra.
  have Hpn : (0 < (2 * PI * v) ^ n)%Re by exact: pow_lt.
  rewrite !sqrt_mult_alt; [|lra|lra].
  have ->: sqrt ((2 * PI * v) ^ N) = (Rpower (2 * PI) (INR N / 2) * Rpower v (INR N / 2))%Re.
  { rewrite sqrt_pow_Rpower // Rpower_mult_base //. lra. }
  have ->: Rpower v (- a - 1) = (Rpower v (- a_post - 1) * Rpower v (INR N / 2))%Re.
  { rewrite -Rpower_plus. f_equal. rewrite /a_post. field. }
  have EE : (exp (- (q1 / (2 * v))) * exp (- (b / v)) * exp (- (q2 / (2 * v)))
             = exp (- (q' / (2 * v))) * exp (- (b_post / v)))%Re.
  { rewrite -!exp_plus. f_equal. rewrite /b_post.
    have ->: (q1 = q' + excess X y mu D - q2)%Re by lra. field. lra. }
  rewrite /evid -/d -/d'.
  have H1 := sqrt_lt_R0 _ Hd. have H2 := sqrt_lt_R0 _ Hd'. have H3 := sqrt_lt_R0 _ Hpn.
  have H4 := Gamma_fun_pos _ Ha. have H5 := Gamma_fun_pos _ Ha'.
  have H6 := Rpower_pos (2 * PI) (INR N / 2). have H7 := Rpower_pos v (INR N / 2).
  have H8 := Rpower_pos b_post a_post.
  set e1 := exp (- (q1 / (2 * v))) in EE *. set e2 := exp (- (b / v)) in EE *.
  set e3 := exp (- (q2 / (2 * v))) in EE *. set e4 := exp (- (q' / (2 * v))) in EE *.
  set e5 := exp (- (b_post / v)) in EE *.
  transitivity ((e1 * e2 * e3) * (/ (sqrt ((2 * PI * v) ^ n) * sqrt d) * (Rpower b a / Gamma_fun a)
     * Rpower v (- a_post - 1) * / Rpower (2 * PI) (INR N / 2)))%Re.
  { field. repeat split; lra. }
  rewrite EE. field. repeat split; lra.
Qed.

Lemma nig_inner t0 D0 a0 b0 v : posdef D0 -> (0 < v)%Re ->
  is_vec_int (fun t : 'cV[R]_n => mv_nig_pdf t0 D0 a0 b0 t v) (pdf (S_invgamma_scale a0 b0) v).
Proof.
  move=> P0 Hv. have H := is_vec_int_scal (pdf (S_invgamma_scale a0 b0) v)
    (mvn_normalised t0 (posdef_scale Hv P0)).
  rewrite Rmult_1_r in H. apply: (is_vec_int_ext _ H) => t. rewrite /mv_nig_pdf. exact: Rmult_comm.
Qed.

Lemma regression_bayes :
  vec_posterior2 (mv_nig_pdf mu Di a b) (regression_lik X y) (mv_nig_pdf mu' Di' a_post b_post).
Proof.
  have He := evid_pos.
  exists (fun v => (evid * pdf (S_invgamma_scale a_post b_post) v)%Re), evid. split=> //. split; [|split].
  - move=> v Hv. have H := is_vec_int_scal evid (nig_inner mu' a_post b_post Di_post_posdef Hv).
    apply: (is_vec_int_ext _ H) => t. by rewrite regression_kernel.
  - rewrite -{2}[evid]Rmult_1_r. apply: is_RInt_gen_mult_l. apply: invgamma_normalised.
    + exact: a_post_pos. + exact: b_post_pos.
  - move=> t v Hv. rewrite regression_kernel //. field. lra.
Qed.

Lemma regression_marginal : vec_marginal2 (mv_nig_pdf mu Di a b) (regression_lik X y) evid.
Proof.
  exists (fun v => (evid * pdf (S_invgamma_scale a_post b_post) v)%Re). split.
  - move=> v Hv. have H := is_vec_int_scal evid (nig_inner mu' a_post b_post Di_post_posdef Hv).
    apply: (is_vec_int_ext _ H) => t. by rewrite -regression_kernel // Rmult_comm.
  - rewrite -{2}[evid]Rmult_1_r. apply: is_RInt_gen_mult_l. apply: invgamma_normalised.
    + exact: a_post_pos. + exact: b_post_pos.
Qed.

Definition pred_scale : 'M[R]_N := (b / a)%Re *: (1%:M + X *m Di *m X^T).
Lemma pred_W : 1%:M + X *m Di *m X^T = W X D.
Proof. by rewrite /W /D invmxK. Qed.
Lemma pred_scale_posdef : posdef pred_scale.
Proof.
  apply: posdef_scale; first exact: Rdiv_lt_0_compat. rewrite pred_W. exact: W_posdef.
Qed.
Lemma evid_t : evid = mvt_pdf (X *m mu) pred_scale (2 * a)%Re y.
Proof.
  have HPI := PI_RGT_0. have Ha' := a_post_pos. have Hb' := b_post_pos. have PD' := Di_post_posdef.
  have PW := W_posdef X PDD. have HW := det_pos PW. have Hd := det_pos PD. have Hd' := det_pos PD'.
  have HD := det_pos PDD. have HDp := det_pos (D_post_posdef X PDD).
  rewrite /mvt_pdf /pred_scale pred_W.
  have HBA : (0 < b / a)%Re by exact: Rdiv_lt_0_compat.
  rewrite inv_scale // det_scale quadZA -excess_eq //.
  have ->: ((2 * a + INR N) / 2 = a_post)%Re by rewrite /a_post; field.
  have ->: (2 * a / 2 = a)%Re by field.
  have ->: ((2 * a * PI) ^ N * ((b / a) ^ N * \det (W X D)) = (2 * PI * b) ^ N * \det (W X D))%Re.
  { rewrite -Rmult_assoc -Rpow_mult_distr. do 2 f_equal. field. lra. }
  have Hpb : (0 < 2 * PI * b)%Re by apply: Rmult_lt_0_compat => //; lra.
  rewrite sqrt_mult_alt; last by apply: Rlt_le; exact: pow_lt.
  rewrite sqrt_pow_Rpower // Rpower_mult_base //; last lra.
  have ->: (1 + / (b / a) * excess X y mu D / (2 * a) = b_post / b)%Re.
  { rewrite /b_post. field. lra. }
  rewrite Rpower_Ropp Rpower_div_base //.
  have ->: Rpower b a_post = (Rpower b a * Rpower b (INR N / 2))%Re by rewrite /a_post Rpower_plus.
  have Es : (sqrt (\det Di') / sqrt (\det Di) = / sqrt (\det (W X D)))%Re.
  { rewrite -sqrt_div_alt // -sqrt_inv. f_equal.
    have E1 : \det Di' = (/ \det (D_post X D))%Re by rewrite /Di' det_inv RinvE.
    have E2 : \det D = (/ \det Di)%Re by rewrite /D det_inv RinvE.
    have := sylvester X PDD. rewrite E1 => <-. rewrite E2. field. split; lra. }
  rewrite /evid Es.
  have H1 := sqrt_lt_R0 _ HW. have H4 := Gamma_fun_pos _ Ha.
  have H6 := Rpower_pos (2 * PI) (INR N / 2). have H7 := Rpower_pos b (INR N / 2).
  have H8 := Rpower_pos b_post a_post. have H9 := Rpower_pos b a.
  field. repeat split; lra.
Qed.
End Bayes.
