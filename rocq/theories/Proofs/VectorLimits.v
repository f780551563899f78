(** The vector models as data accumulates. *)

From Coq Require Import Reals ZArith Lra List.
From Coquelicot Require Import Coquelicot.
From mathcomp Require Import all_ssreflect all_algebra.
From Verif Require Import Model.Num Model.Py Model.Dists Model.ScipyDist Model.Models Model.NdArray Model.MatrixModel.
From Verif Require Import Spec.Special Analysis.RField Spec.Matrices Spec.Wishart Analysis.Posdef Spec.Arrays Spec.PrequentialArrays Spec.VectorMoments Spec.VectorLimits.
From Verif Require Import Proofs.Arrays Analysis.Regression Analysis.MvnBayes Analysis.WishartBayes Analysis.MatrixLimits
  Analysis.GammaBeta Proofs.Limits Proofs.LinReg Proofs.MvNormal Proofs.Wishart Proofs.PrequentialArrays Proofs.VectorMoments Proofs.Loewner Proofs.GammaRatio.
Delimit Scope R_scope with Re.

Set Implicit Arguments.
Unset Strict Implicit.
Unset Printing Implicit Defensive.
Import GRing.Theory.
Local Open Scope ring_scope.

(** ** averages *)
Lemma average_big T (f : T -> R) data : average f data = ((\sum_(x <- data) f x) / INR (length data))%Re.
Proof.
  rewrite /average. congr (_ / _)%Re. elim: data => [|x l IH] /=; first by rewrite big_nil. by rewrite big_cons IH.
Qed.

Section Stream.
Variables (T : Type) (data : nat -> list T).
Hypothesis U : unlimited data.
Definition w N : R := (/ INR (length (data N)))%Re.
Lemma count_pos N : (0 < INR (length (data N)))%Re.
Proof. case: U => H _. move: (H N). case: (data N) => [//|x l _]. apply: lt_0_INR. exact: PeanoNat.Nat.lt_0_succ. Qed.
Lemma w_pos N : (0 < w N)%Re. Proof. apply: Rinv_0_lt_compat. exact: count_pos. Qed.
Lemma w_count N : (w N * INR (length (data N)))%Re = 1%Re.
Proof. rewrite /w Rinv_l //. have := count_pos N. lra. Qed.
Lemma w_lim : is_lim_seq w 0%Re.
Proof. case: U => _ H. exact: lim_inv_inf. Qed.
Lemma scaled_average (f : T -> R) (a : R) : average_tends data f a -> is_lim_seq (fun N => (w N * \sum_(x <- data N) f x)%Re) a.
Proof. move=> H. apply: is_lim_seq_ext H => N. rewrite average_big /w. rewrite Rmult_comm. by []. Qed.
End Stream.

(** a symmetric matrix that vanishes in the limit *)
Lemma shrink_lim m n (w : nat -> R) (A : 'M[R]_(m, n)) (B : nat -> 'M[R]_(m, n)) K :
  is_lim_seq w 0%Re -> mx_lim B K -> mx_lim (fun N => w N *: A + B N) K.
Proof.
  move=> Hw HB. rewrite -[K]add0r -(scale0r A). apply: mx_lim_add => //. apply: mx_lim_scale => //. exact: mx_lim_const.
Qed.
Lemma vanish_lim m n (w : nat -> R) (B : nat -> 'M[R]_(m, n)) K : is_lim_seq w 0%Re -> mx_lim B K -> mx_lim (fun N => w N *: B N) 0.
Proof. move=> Hw HB. rewrite -(scale0r K). exact: mx_lim_scale. Qed.

(** ** known covariance or precision *)
Section Known.
Variables (n : nat) (xs : nat -> list 'cV[R]_n) (m mu0 : 'cV[R]_n) (P0 P : 'M[R]_n).
Hypotheses (U : unlimited xs) (PD0 : posdef P0) (PD : posdef P).
Hypothesis Hm : forall i, average_tends xs (fun x => x i 0) (m i 0).
Let w := w xs.

Lemma xbar_lim : mx_lim (fun N => w N *: vsum (xs N)) m.
Proof.
  move=> i j. rewrite [j]ord1. apply: is_lim_seq_ext (scaled_average (@Hm i)) => N. by rewrite mxE /vsum summxE.
Qed.

Let A N := w N *: P0 + P.
Lemma A_posdef N : posdef (A N).
Proof. apply: posdef_addp => //. apply: posdef_scale => //. exact: w_pos. Qed.
Lemma P_post_A N : P_post P0 P (xs N) = INR (length (xs N)) *: A N.
Proof.
  rewrite /P_post /A scalerDr scalerA. congr (_ + _). rewrite mulrC. rewrite [(w N * _)%R](w_count U). by rewrite scale1r.
Qed.
Lemma inv_P_post N : invmx (P_post P0 P (xs N)) = w N *: invmx (A N).
Proof. rewrite P_post_A inv_scale //; [exact: count_pos | exact: A_posdef]. Qed.

Lemma A_lim : mx_lim (fun N => invmx (A N)) (invmx P).
Proof.
  apply: inv_lim; [by move=> N; apply: posdef_unit; exact: A_posdef | exact: posdef_unit |].
  apply: shrink_lim; [exact: w_lim | exact: mx_lim_const].
Qed.
Lemma covs_lim : mx_lim (fun N => invmx (P_post P0 P (xs N))) 0.
Proof.
  apply: mx_lim_ext; first by move=> N; rewrite inv_P_post. apply: vanish_lim; [exact: w_lim | exact: A_lim].
Qed.
Lemma mus_lim : mx_lim (fun N => m_post mu0 P0 P (xs N)) m.
Proof.
  have E N : invmx (A N) *m (w N *: (P0 *m mu0) + P *m (w N *: vsum (xs N))) = m_post mu0 P0 P (xs N).
  { rewrite /m_post inv_P_post -scalemxAr -scalerDr -scalemxAr -scalemxAl. by []. }
  apply: mx_lim_ext; first exact: E.
  have {1}-> : m = invmx P *m (P *m m) by rewrite mulKmx // posdef_unit.
  apply: mx_lim_mul; first exact: A_lim. apply: shrink_lim; first exact: w_lim.
  apply: mx_lim_mul; [exact: mx_lim_const | exact: xbar_lim].
Qed.
End Known.

Lemma mvn_pdf_lim n (mus : nat -> 'cV[R]_n) covs m (C : 'M[R]_n) x : mx_lim mus m -> mx_lim covs C ->
  (forall N, posdef (covs N)) -> posdef C -> is_lim_seq (fun N => mvn_pdf (mus N) (covs N) x) (mvn_pdf m C x).
Proof.
  move=> Hm HC PN PC. rewrite /mvn_pdf. apply: is_lim_seq_mult'.
  - apply: (is_lim_seq_continuous exp (fun N => (- (quad (invmx (covs N)) (x - mus N)%R / 2))%Re)).
    { apply: derivable_continuous_pt. exact: derivable_pt_exp. }
    apply: lim_opp. apply: is_lim_seq_mult'; last exact: is_lim_seq_const. apply: quad_lim.
    + apply: inv_lim => //; [by move=> N; exact: posdef_unit | exact: posdef_unit].
    + apply: mx_lim_add; [exact: mx_lim_const | exact: mx_lim_opp].
  - have H2 : (0 < (2 * PI) ^ n)%Re by apply: pow_lt; have := PI_RGT_0; lra.
    have D := det_pos PC.
    have H : (0 < (2 * PI) ^ n * \det C)%Re by exact: Rmult_lt_0_compat.
    apply: (is_lim_seq_inv _ (sqrt ((2 * PI) ^ n * \det C))).
    + apply: (is_lim_seq_continuous sqrt (fun N => ((2 * PI) ^ n * \det (covs N))%Re)).
      { apply: continuity_pt_sqrt. lra. }
      apply: is_lim_seq_mult'; [exact: is_lim_seq_const | exact: det_lim].
    + move=> [] E. have := sqrt_lt_R0 _ H. lra.
Qed.

Lemma sqrt_pow_n x n : (0 <= x)%Re -> sqrt (x ^ n) = (sqrt x ^ n)%Re.
Proof. move=> Hx. elim: n => [|n IH] /=; first exact: sqrt_1. rewrite sqrt_mult ?IH //. exact: pow_le. Qed.
Lemma mvt_pdf_lim n (mus : nat -> 'cV[R]_n) Ss (df : nat -> R) m (S : 'M[R]_n) x : mx_lim mus m -> mx_lim Ss S ->
  (forall N, posdef (Ss N)) -> posdef S -> (forall N, (0 < df N)%Re) -> is_lim_seq df p_infty ->
  is_lim_seq (fun N => mvt_pdf (mus N) (Ss N) (df N) x) (mvn_pdf m S x).
Proof.
  move=> Hm HS PN PS Hd Hi. pose q N := quad (invmx (Ss N)) (x - mus N)%R.
  have Hq : is_lim_seq q (quad (invmx S) (x - m)%R).
  { apply: quad_lim.
    - apply: inv_lim => //; [by move=> N; exact: posdef_unit | exact: posdef_unit].
    - apply: mx_lim_add; [exact: mx_lim_const | exact: mx_lim_opp]. }
  have H2 : (0 < (2 * PI) ^ n)%Re by apply: pow_lt; have := PI_RGT_0; lra.
  have D := det_pos PS.
  have H : (0 < (2 * PI) ^ n * \det S)%Re by exact: Rmult_lt_0_compat.
  have X : is_lim_seq (fun N => (Rpower (1 + q N / df N) (- ((df N + INR n) / 2)) *
      (Gamma_fun ((df N + INR n) / 2) / Gamma_fun (df N / 2) / sqrt (df N / 2) ^ n * / sqrt ((2 * PI) ^ n * \det (Ss N))))%Re)
    (exp (- (quad (invmx S) (x - m)%R / 2)) * (1 * / sqrt ((2 * PI) ^ n * \det S)))%Re.
  { apply: is_lim_seq_mult'.
    - apply: kernel_limit => //; last exact: pos_INR. move=> N. apply: quad_nonneg. exact: posdef_inv.
    - apply: is_lim_seq_mult'; first exact: gamma_ratio.
      apply: (is_lim_seq_inv _ (sqrt ((2 * PI) ^ n * \det S))).
      + apply: (is_lim_seq_continuous sqrt (fun N => ((2 * PI) ^ n * \det (Ss N))%Re)).
        { apply: continuity_pt_sqrt. lra. }
        apply: is_lim_seq_mult'; [exact: is_lim_seq_const | exact: det_lim].
      + move=> [] E. have := sqrt_lt_R0 _ H. lra. }
  rewrite Rmult_1_l in X. apply: is_lim_seq_ext X => N. rewrite /mvt_pdf -/(q N).
  have DN := det_pos (PN N). have dN := Hd N. have HP := PI_RGT_0.
  have -> : sqrt ((df N * PI) ^ n * \det (Ss N)) = (sqrt (df N / 2) ^ n * sqrt ((2 * PI) ^ n * \det (Ss N)))%Re.
  { have -> : (df N * PI)%Re = (df N / 2 * (2 * PI))%Re by field.
    rewrite Rpow_mult_distr Rmult_assoc sqrt_mult.
    - congr (_ * _)%Re. apply: sqrt_pow_n. lra.
    - apply: pow_le. lra.
    - apply: Rlt_le. exact: Rmult_lt_0_compat. }
  have G := Gamma_fun_pos (df N / 2) ltac:(lra).
  have S1 : (0 < sqrt (df N / 2))%Re by apply: sqrt_lt_R0; lra.
  have S2 := pow_lt _ n S1.
  have S3 : (0 < sqrt ((2 * PI) ^ n * \det (Ss N)))%Re by apply: sqrt_lt_R0; exact: Rmult_lt_0_compat.
  field. lra.
Qed.

Section KnownModels.
Variables (n : nat) (l : layout) (np_inv inv : nd R -> res (nd R)).
Hypotheses (Hnp : inverts np_inv) (Hinv : inverts inv).
Variables (xs : nat -> list 'cV[R]_n) (s : nat -> nd R * nd R) (prior : MultivariateNormal (nd R)) (m mu0 : 'cV[R]_n) (cov0 : 'M[R]_n).
Hypotheses (U : unlimited xs) (Hs : forall N, holds_sample l (xs N) (s N)) (Hp : holds_mvn l prior mu0 cov0) (PD0 : posdef cov0).
Hypothesis Hm : forall i, average_tends xs (fun x => x i 0) (m i 0).

Lemma known_covariance_limit cov (covm : 'M[R]_n) : holds_mx cov covm -> posdef covm ->
  exists (mus : nat -> 'cV[R]_n) covs dens,
    (forall N, exists post pred, multivariate_normal_known_covariance np_inv (s N).1 (s N).2 cov prior inv = Ok post /\
       is_vec_mean (mv_pdf l (n := n) (MultivariateNormal_dist post)) (mus N) /\
       is_vec_cov (mv_pdf l (n := n) (MultivariateNormal_dist post)) (covs N) /\
       multivariate_normal_known_covariance_predictive post cov = Ok pred /\
       dens N = mv_pdf l (n := n) (MultivariateNormal_dist pred)) /\
    mx_lim mus m /\ mx_lim covs 0 /\ forall x, is_lim_seq (fun N => dens N x) (mvn_pdf m covm x).
Proof.
  move=> Hc PD. have Q0 := posdef_inv PD0. have Q := posdef_inv PD.
  pose mus N := m_post mu0 (invmx cov0) (invmx covm) (xs N). pose covs N := invmx (P_post (invmx cov0) (invmx covm) (xs N)).
  have PC N : posdef (covs N) by apply: posdef_inv; exact: P_post_posdef.
  exists mus, covs, (fun N => mvn_pdf (mus N) (covs N + covm)). split; last split; last split.
  - move=> N. case: (known_covariance_computes Hnp Hinv (Hs N) Hc Hp PD0 PD) => post [E H].
    case: (MultivariateNormal_moments H (PC N)) => _ [H1 H2].
    case: (holds_mvn_elim H) => Hm' Hc'.
    case: (cm_add (c_ok Hc') (c_ok Hc)) => cp [Ec Hcp].
    exists post. eexists. split; first exact: E. split; first exact: H1. split; first exact: H2.
    rewrite /multivariate_normal_known_covariance_predictive Ec. cbn [bind]. split; first reflexivity.
    apply/esym. apply: mv_pdf_mvn. by eexists _, _.
  - exact: mus_lim.
  - exact: covs_lim.
  - move=> x. apply: mvn_pdf_lim => //; first exact: mus_lim.
    + have X : mx_lim (fun N => covs N + covm) (0 + covm) by apply: mx_lim_add; [exact: covs_lim | exact: mx_lim_const].
      by rewrite add0r in X.
    + move=> N. exact: posdef_addp.
Qed.

Lemma known_precision_limit prec (P : 'M[R]_n) : holds_mx prec P -> posdef P ->
  exists (mus : nat -> 'cV[R]_n) covs dens,
    (forall N, exists post pred, multivariate_normal_known_precision np_inv (s N).1 (s N).2 prec prior inv = Ok post /\
       is_vec_mean (mv_pdf l (n := n) (MultivariateNormal_dist post)) (mus N) /\
       is_vec_cov (mv_pdf l (n := n) (MultivariateNormal_dist post)) (covs N) /\
       multivariate_normal_known_precision_predictive post prec inv = Ok pred /\
       dens N = mv_pdf l (n := n) (MultivariateNormal_dist pred)) /\
    mx_lim mus m /\ mx_lim covs 0 /\ forall x, is_lim_seq (fun N => dens N x) (mvn_pdf m (invmx P) x).
Proof.
  move=> Hc PD. have Q0 := posdef_inv PD0. have Q := posdef_inv PD.
  pose mus N := m_post mu0 (invmx cov0) P (xs N). pose covs N := invmx (P_post (invmx cov0) P (xs N)).
  have PC N : posdef (covs N) by apply: posdef_inv; exact: P_post_posdef.
  exists mus, covs, (fun N => mvn_pdf (mus N) (covs N + invmx P)). split; last split; last split.
  - move=> N. case: (known_precision_computes Hnp Hinv (Hs N) Hc Hp PD0 PD) => post [E H].
    case: (MultivariateNormal_moments H (PC N)) => _ [H1 H2].
    case: (holds_mvn_elim H) => Hm' Hc'. case: (Hinv Hc PD) => ci [Ei Hci].
    case: (cm_add (c_ok Hc') (c_ok Hci)) => cp [Ec Hcp].
    exists post. eexists. split; first exact: E. split; first exact: H1. split; first exact: H2.
    rewrite /multivariate_normal_known_precision_predictive Ei. cbn [bind]. rewrite Ec. cbn [bind]. split; first reflexivity.
    apply/esym. apply: mv_pdf_mvn. by eexists _, _.
  - exact: mus_lim.
  - exact: covs_lim.
  - move=> x. apply: mvn_pdf_lim => //; first exact: mus_lim.
    + have X : mx_lim (fun N => covs N + invmx P) (0 + invmx P) by apply: mx_lim_add; [exact: covs_lim | exact: mx_lim_const].
      by rewrite add0r in X.
    + move=> N. exact: posdef_addp.
Qed.
End KnownModels.

(** quotients of two quantities that grow with the data *)
Lemma div_scaled (c x y : R) : (0 < c)%Re -> ((c * x) / (c * y))%Re = (x / y)%Re.
Proof.
  move=> H. rewrite /Rdiv Rinv_mult. transitivity ((c * / c) * (x * / y))%Re; first ring. rewrite Rinv_r; [ring | lra].
Qed.
Lemma div_lim (w x y : nat -> R) (X Y : R) : (forall N, (0 < w N)%Re) -> is_lim_seq (fun N => (w N * x N)%Re) X ->
  is_lim_seq (fun N => (w N * y N)%Re) Y -> Y <> 0%Re -> is_lim_seq (fun N => (x N / y N)%Re) (X / Y)%Re.
Proof.
  move=> Hw Hx Hy HY. apply: is_lim_seq_ext; first by move=> N; exact: (div_scaled (x N) (y N) (Hw N)). exact: is_lim_seq_div'.
Qed.

(** ** linear regression *)
Section RegressionLimit.
Variables (n : nat) (data : nat -> list (obs n)) (beta : 'cV[R]_n) (G : 'M[R]_n) (sigma2 : R).
Hypotheses (U : unlimited data) (PG : posdef G).
Hypothesis HG : forall i j, average_tends data (fun o => (o.1 i 0%R * o.1 j 0%R)%Re) (G i j).
Hypothesis Hr : forall i, average_tends data (fun o => (o.1 i 0%R * residual beta o)%Re) 0%Re.
Hypothesis Hs : average_tends data (fun o => (residual beta o ^ 2)%Re) sigma2.
Variables (mu : 'cV[R]_n) (D : 'M[R]_n).
Hypothesis PD : posdef D.
Let w := w data.
Let X N := design (data N).
Let y N := response (data N).
Let r N := y N - X N *m beta.

Lemma r_entry N i : r N i 0 = residual beta (List.nth i (data N) (0, 0%Re)).
Proof.
  rewrite /r /residual !mxE. congr (_ - _)%Re. apply: eq_bigr => k _. by rewrite !mxE.
Qed.
Lemma gram_lim : mx_lim (fun N => w N *: ((X N)^T *m X N)) G.
Proof.
  move=> i j. apply: is_lim_seq_ext (scaled_average (@HG i j)) => N. rewrite !mxE.
  rewrite -(sum_rows (0, 0%Re) (data N) (fun o : obs n => (o.1 i 0%R * o.1 j 0%R)%Re)). congr (_ * _)%Re.
  apply: eq_bigr => k _. by rewrite !mxE.
Qed.
Lemma noise_lim : mx_lim (fun N => w N *: ((X N)^T *m r N)) 0.
Proof.
  move=> i j. rewrite [j]ord1 [X in is_lim_seq _ (Finite X)]mxE. apply: is_lim_seq_ext (scaled_average (@Hr i)) => N. rewrite !mxE.
  rewrite -(sum_rows (0, 0%Re) (data N) (fun o : obs n => (o.1 i 0%R * residual beta o)%Re)). congr (_ * _)%Re.
  apply: eq_bigr => k _. by rewrite r_entry !mxE.
Qed.
Lemma square_lim : is_lim_seq (fun N => (w N * quad 1%:M (r N))%Re) sigma2.
Proof.
  apply: is_lim_seq_ext (scaled_average (@Hs)) => N. congr (_ * _)%Re.
  rewrite quad1 -(sum_rows (0, 0%Re) (data N) (fun o : obs n => (residual beta o ^ 2)%Re)).
  apply: eq_bigr => k _. by rewrite r_entry /= Rmult_1_r.
Qed.

Lemma cross N : (X N)^T *m y N = (X N)^T *m X N *m beta + (X N)^T *m r N.
Proof. by rewrite /r mulmxBr mulmxA addrC subrK. Qed.
Lemma square N : quad 1%:M (y N) = (quad 1%:M (r N) + 2 * (((X N)^T *m r N)^T *m beta) 0%R 0%R + quad ((X N)^T *m X N) beta)%Re.
Proof.
  have {1}-> : y N = r N + X N *m beta by rewrite /r subrK.
  rewrite quad_add; last by rewrite trmx1. rewrite XtX_quad /bil mulmx1 trmx_mul trmxK -mulmxA. by [].
Qed.

Let B N := w N *: D + w N *: ((X N)^T *m X N).
Lemma D_post_B N : D_post (X N) D = INR (length (data N)) *: B N.
Proof.
  rewrite /D_post /B -scalerDr scalerA mulrC. rewrite [(w N * _)%R](w_count U). by rewrite scale1r addrC.
Qed.
Lemma B_posdef N : posdef (B N).
Proof.
  rewrite /B -scalerDr. apply: posdef_scale; first exact: w_pos. apply: posdef_add => //; first by rewrite trmx_mul trmxK.
  move=> v. exact: gram_nonneg.
Qed.
Lemma B_lim : mx_lim B G.
Proof. apply: shrink_lim; [exact: w_lim | exact: gram_lim]. Qed.
Lemma B_inv_lim : mx_lim (fun N => invmx (B N)) (invmx G).
Proof. apply: inv_lim; [by move=> N; apply: posdef_unit; exact: B_posdef | exact: posdef_unit | exact: B_lim]. Qed.
Lemma D_inv N : invmx (D_post (X N) D) = w N *: invmx (B N).
Proof. rewrite D_post_B inv_scale //; [exact: count_pos | exact: B_posdef]. Qed.

Lemma coef_cov_lim : mx_lim (fun N => invmx (D_post (X N) D)) 0.
Proof. apply: mx_lim_ext; first by move=> N; rewrite D_inv. apply: vanish_lim; [exact: w_lim | exact: B_inv_lim]. Qed.
Lemma coef_lim : mx_lim (fun N => mu_post (X N) (y N) mu D) beta.
Proof.
  have E N : invmx (B N) *m (w N *: (D *m mu) + (w N *: ((X N)^T *m X N) *m beta + w N *: ((X N)^T *m r N))) = mu_post (X N) (y N) mu D.
  { by rewrite /mu_post D_inv cross -[in LHS]scalemxAl -!scalerDr -scalemxAl scalemxAr. }
  apply: mx_lim_ext; first exact: E.
  rewrite -[L in mx_lim _ L](_ : invmx G *m (G *m beta + 0) = beta); last by rewrite addr0 mulKmx // posdef_unit.
  apply: mx_lim_mul; first exact: B_inv_lim. apply: shrink_lim; first exact: w_lim.
  apply: mx_lim_add; last exact: noise_lim. apply: mx_lim_mul; [exact: gram_lim | exact: mx_lim_const].
Qed.

Lemma excess_lim : is_lim_seq (fun N => (w N * excess (X N) (y N) mu D)%Re) sigma2.
Proof.
  have E N : (w N * quad 1%:M (r N) + 2 * ((w N *: ((X N)^T *m r N))^T *m beta) 0%R 0%R + quad (w N *: ((X N)^T *m X N))%R beta
     + w N * quad D mu - quad (B N) (mu_post (X N) (y N) mu D))%Re = (w N * excess (X N) (y N) mu D)%Re.
  { rewrite /excess square D_post_B linearZ /= -scalemxAl [in LHS]mxE !quadZA.
    have H := w_count U N. toR. rewrite -/(w N) in H *. 
    set a1 := quad _ (r N). set a2 := (_ *m beta) _ _. set a3 := quad _ beta. set a4 := quad D mu. set a5 := quad (B N) _.
    have -> : (w N * (a1 + 2 * a2 + a3 + a4 - INR (length (data N)) * a5))%Re = (w N * (a1 + 2 * a2 + a3 + a4) - (w N * INR (length (data N))) * a5)%Re by ring.
    rewrite H. ring. }
  apply: is_lim_seq_ext; first exact: E.
  have -> : Finite sigma2 = Finite (sigma2 + 2 * 0 + quad G beta + 0 * quad D mu - quad G beta)%Re by congr Finite; ring.
  apply: is_lim_seq_minus'; last by apply: quad_lim; [exact: B_lim | exact: coef_lim].
  apply: is_lim_seq_plus'; last by apply: is_lim_seq_mult'; [exact: w_lim | exact: is_lim_seq_const].
  apply: is_lim_seq_plus'; last by apply: quad_lim; [exact: gram_lim | exact: mx_lim_const].
  apply: is_lim_seq_plus'; first exact: square_lim.
  apply: is_lim_seq_mult'; first exact: is_lim_seq_const.
  have Z := mx_lim_mul (mx_lim_tr noise_lim) (@mx_lim_const _ _ beta). move: (Z 0 0). by rewrite trmx0 mul0mx mxE.
Qed.
End RegressionLimit.


Lemma linear_regression_limit n l inv eye (data : nat -> list (obs n)) arrays prior (mu : 'cV[R]_n) Di a b (beta : 'cV[R]_n) (G : 'M[R]_n) sigma2
  K X (Xm : 'M[R]_(K, n)) :
  inverts inv -> makes_eye eye -> unlimited data -> (forall N, holds_data l (data N) (arrays N)) ->
  holds_nig l prior mu Di a b -> posdef Di -> (0 < a)%Re -> (0 < b)%Re -> holds_mx X Xm ->
  posdef G -> (forall i j, average_tends data (fun o => (o.1 i 0%R * o.1 j 0%R)%Re) (G i j)) ->
  (forall i, average_tends data (fun o => (o.1 i 0%R * residual beta o)%Re) 0%Re) ->
  average_tends data (fun o => (residual beta o ^ 2)%Re) sigma2 -> (0 < sigma2)%Re ->
  exists (betas : nat -> 'cV[R]_n) covs sigma2s dens,
    (forall N, exists post pred, linear_regression (arrays N).1 (arrays N).2 prior inv = Ok post /\
       (exists a' b', holds_nig l post (betas N) (covs N) a' b') /\
       ((2 <= length (data N))%N -> is_vec_pos_mean (nig_pdf_of l (n := n) post) (betas N, sigma2s N)) /\
       linear_regression_predictive post X eye = Ok pred /\
       dens N = mv_pdf l (n := K) (MultivariateStudentT_dist pred)) /\
    mx_lim betas beta /\ mx_lim covs 0 /\ is_lim_seq sigma2s sigma2 /\
    forall y, is_lim_seq (fun N => dens N y) (mvn_pdf (Xm *m beta) (sigma2 *: 1%:M) y).
Proof.
  move=> Hinv Heye U Hd Hp PD Ha Hb HX PG HG Hr Hs Hs0.
  have PI := posdef_inv PD.
  pose m' N := mu_post (design (data N)) (response (data N)) mu (invmx Di).
  pose D' N := invmx (D_post (design (data N)) (invmx Di)).
  pose a' N := a_post (length (data N)) a. pose b' N := b_post (design (data N)) (response (data N)) mu Di b.
  pose S N := (b' N / a' N)%Re *: (1%:M + Xm *m D' N *m Xm^T).
  have PD' N : posdef (D' N) by apply: posdef_inv; exact: D_post_posdef.
  have Pa N : (0 < a' N)%Re by rewrite /a' /a_post; have := pos_INR (length (data N)); lra.
  have Pb N : (0 < b' N)%Re by exact: b_post_pos.
  have LD : mx_lim D' 0 by exact: (coef_cov_lim U PG HG PI).
  have Lm : mx_lim m' beta by exact: (coef_lim U PG HG Hr mu PI).
  have LE := excess_lim U PG HG Hr Hs mu PI.
  have Lb : is_lim_seq (fun N => (w data N * b' N)%Re) (sigma2 / 2)%Re.
  { have -> : (sigma2 / 2)%Re = (0 * b + sigma2 / 2)%Re by ring.
    apply: (is_lim_seq_ext (fun N => (w data N * b + w data N * excess (design (data N)) (response (data N)) mu (invmx Di) / 2)%Re)).
    - move=> N. rewrite /b' /b_post. field.
    - apply: is_lim_seq_plus'; apply: is_lim_seq_mult'; try exact: is_lim_seq_const; [exact: w_lim | exact: LE]. }
  have La c : is_lim_seq (fun N => (w data N * (a' N - c))%Re) (/ 2)%Re.
  { have -> : (/ 2)%Re = (0 * (a - c) + / 2)%Re by ring.
    apply: (is_lim_seq_ext (fun N => (w data N * (a - c) + / 2)%Re)).
    - move=> N. rewrite /a' /a_post. have E := w_count U N.
      have -> : (w data N * (a + INR (length (data N)) / 2 - c))%Re = (w data N * (a - c) + (w data N * INR (length (data N))) / 2)%Re by field.
      rewrite E. field.
    - apply: is_lim_seq_plus'; last exact: is_lim_seq_const. apply: is_lim_seq_mult'; [exact: w_lim | exact: is_lim_seq_const]. }
  have Lq c : is_lim_seq (fun N => (b' N / (a' N - c))%Re) sigma2.
  { have -> : Finite sigma2 = Finite ((sigma2 / 2) / / 2)%Re by congr Finite; field.
    apply: (div_lim (w := w data)) => //; [by move=> N; exact: w_pos | lra]. }
  have LS : mx_lim S (sigma2 *: 1%:M).
  { have Z : mx_lim S (sigma2 *: (1%:M + Xm *m 0 *m Xm^T)).
    - apply: mx_lim_scale.
      + apply: is_lim_seq_ext (Lq 0%Re) => N. by rewrite Rminus_0_r.
      + apply: mx_lim_add; first exact: mx_lim_const. apply: mx_lim_mul; last exact: mx_lim_const.
        apply: mx_lim_mul; [exact: mx_lim_const | exact: LD].
    - by rewrite mulmx0 mul0mx addr0 in Z. }
  exists m', D', (fun N => (b' N / (a' N - 1))%Re), (fun N => mvt_pdf (Xm *m m' N) (S N) (2 * a' N)%Re).
  have PS N : posdef (S N).
  { apply: posdef_scale; first exact: Rdiv_lt_0_compat. apply: posdef_add; first exact: posdef1.
    - rewrite -[Xm in Xm *m D' N]trmxK sym_congr //. exact: posdef_sym.
    - move=> v. rewrite -[Xm in Xm *m D' N]trmxK quad_congr. exact: quad_nonneg. }
  split; last (split; first by []); last (split; first by []); last (split; first exact: Lq).
  - move=> N. case: (Hd N) => HXN HyN. case: (linear_regression_computes Hinv HXN HyN Hp PD) => post [E H].
    case: (linear_regression_predictive_marginal Heye HX H (PD' N) (Pa N) (Pb N)) => pred [m [S' [nu [E2 [H2 [_ [_ [Em [En [ES _]]]]]]]]]].
    exists post, pred. split; first exact: E. split; first by exists (a' N), (b' N). split.
    + move=> L2. case: (NormalInverseGamma_moments H (PD' N) (Pa N) (Pb N)) => _. apply.
      have : (2 <= INR (length (data N)))%Re by apply: (le_INR 2); exact/leP. rewrite /a_post. lra.
    + split; first exact: E2. rewrite (mv_pdf_mvt H2). by rewrite Em En ES.
  - move=> yy. apply: mvt_pdf_lim => //.
    + apply: mx_lim_mul; [exact: mx_lim_const | exact: Lm].
    + apply: posdef_scale => //. exact: posdef1.
    + move=> N. have := Pa N. lra.
    + case: U => _ Hi. apply: (is_lim_seq_ext (fun N => (2 * a + INR (length (data N)))%Re)).
      * move=> N. rewrite /a' /a_post. field.
      * exact: lim_add_inf.
Qed.

(** ** unknown covariance matrix *)
Section Scatter.
Variables (n : nat) (xs : nat -> list 'cV[R]_n) (m : 'cV[R]_n) (S : 'M[R]_n).
Hypothesis U : unlimited xs.
Hypothesis HS : forall i j, average_tends xs (fun x => ((x i 0%R - m i 0%R) * (x j 0%R - m j 0%R))%Re) (S i j).
Lemma scat_lim : mx_lim (fun N => w xs N *: scat (xs N) m) S.
Proof.
  move=> i j. apply: is_lim_seq_ext (scaled_average (@HS i j)) => N. rewrite mxE. congr (_ * _)%Re.
  rewrite /scat summxE. apply: eq_bigr => x _. by rewrite outerE !mxE.
Qed.
Lemma df_lim c : is_lim_seq (fun N => (w xs N * (c + INR (length (xs N))))%Re) 1%Re.
Proof.
  have -> : Finite 1%Re = Finite (0 * c + 1)%Re by congr Finite; ring.
  apply: (is_lim_seq_ext (fun N => (w xs N * c + 1)%Re)); first by move=> N; rewrite Rmult_plus_distr_l (w_count U).
  apply: is_lim_seq_plus'; last exact: is_lim_seq_const. apply: is_lim_seq_mult'; [exact: w_lim | exact: is_lim_seq_const].
Qed.
Lemma mean_of_scaled c (A : nat -> 'M[R]_n) : mx_lim (fun N => w xs N *: A N) S ->
  mx_lim (fun N => (/ (c + INR (length (xs N))))%Re *: A N) S.
Proof.
  move=> HA i j. apply: (is_lim_seq_ext (fun N => (A N i j / (c + INR (length (xs N))))%Re)).
  - move=> N. rewrite [RHS]mxE. toR. rewrite /Rdiv. ring.
  - have -> : Finite (S i j) = Finite (S i j / 1)%Re by rewrite /Rdiv Rinv_1 Rmult_1_r.
    apply: (div_lim (w := w xs)); [by move=> N; exact: w_pos | | exact: df_lim | lra].
    apply: is_lim_seq_ext (HA i j) => N. by rewrite mxE.
Qed.
End Scatter.

Lemma known_mean_limit n X muA prior (xs : nat -> list 'cV[R]_n) (mu : 'cV[R]_n) nu (psi S : 'M[R]_n) :
  unlimited xs -> (forall N, holds_mx (X N) (rows (xs N))) -> holds_vec Flat muA mu -> holds_iw prior nu psi -> posdef psi -> (INR n - 1 < nu)%Re ->
  (forall i j, average_tends xs (fun x => ((x i 0%R - mu i 0%R) * (x j 0%R - mu j 0%R))%Re) (S i j)) ->
  exists Ss : nat -> 'M[R]_n,
    (forall N, exists post, multivariate_normal_known_mean (X N) muA prior = Ok post /\
       ((2 <= length (xs N))%N -> is_cone_mean (iw_pdf_of (n := n) post) (Ss N))) /\
    mx_lim Ss S.
Proof.
  move=> U HX Hm Hp PP Hn HS. exists (fun N => (/ ((nu - INR n - 1) + INR (length (xs N))))%Re *: psi_km mu (xs N) psi). split.
  - move=> N. case: (known_mean_computes (HX N) Hm Hp) => post [E H]. exists post. split; first exact: E. move=> L2.
    have H2 : (2 <= INR (length (xs N)))%Re by apply: (le_INR 2); exact/leP.
    case: (InverseWishart_moments H (psi_km_posdef mu (xs N) PP) ltac:(lra)) => _ /(_ ltac:(lra)).
    have -> // : (nu + INR (length (xs N)) - INR n - 1)%Re = (nu - INR n - 1 + INR (length (xs N)))%Re by ring.
  - apply: mean_of_scaled => //. apply: (@mx_lim_ext _ _ (fun N => w xs N *: psi + w xs N *: scat (xs N) mu)).
    + move=> N. by rewrite /psi_km scalerDr.
    + apply: shrink_lim; [exact: w_lim | exact: scat_lim].
Qed.

Section NIWLimit.
Variables (n : nat) (xs : nat -> list 'cV[R]_n) (m mu : 'cV[R]_n) (k : R) (psi S : 'M[R]_n).
Hypotheses (U : unlimited xs) (Hk : (0 < k)%Re) (PP : posdef psi).
Hypothesis Hm : forall i, average_tends xs (fun x => x i 0) (m i 0).
Hypothesis HS : forall i j, average_tends xs (fun x => ((x i 0%R - m i 0%R) * (x j 0%R - m j 0%R))%Re) (S i j).

Lemma xbar_tends : mx_lim (fun N => xbar (xs N)) m.
Proof. exact: (xbar_lim Hm). Qed.
Let c N := (k / k_niw k (xs N))%Re.
Lemma k_pos N : (0 < k_niw k (xs N))%Re.
Proof. apply: Rplus_lt_0_compat => //. exact: count_pos. Qed.
Lemma c_lim : is_lim_seq c 0%Re.
Proof.
  have -> : Finite 0%Re = Finite (0 / 1)%Re by congr Finite; field.
  apply: (div_lim (w := w xs)); [by move=> N; exact: w_pos | | exact: df_lim | lra].
  have -> : Finite 0%Re = Finite (0 * k)%Re by congr Finite; ring.
  apply: is_lim_seq_mult'; [exact: w_lim | exact: is_lim_seq_const].
Qed.
Lemma mu_niw_lim : mx_lim (fun N => mu_niw mu k (xs N)) m.
Proof.
  have Z : mx_lim (fun N => c N *: mu + (1 - c N)%Re *: xbar (xs N)) ((1 - 0)%Re *: m).
  { apply: shrink_lim; first exact: c_lim. apply: mx_lim_scale; last exact: xbar_tends.
    apply: is_lim_seq_minus'; [exact: is_lim_seq_const | exact: c_lim]. }
  rewrite Rminus_0_r scale1r in Z. apply: mx_lim_ext Z => N. have K := k_pos N.
  apply/matrixP => i j. rewrite /mu_niw ![in RHS]mxE ![in LHS]mxE. toR. rewrite /c. move: K. rewrite /k_niw => K. field. split; apply: Rgt_not_eq => //; exact: (count_pos U N).
Qed.
Lemma scat_shift N : scat (xs N) (xbar (xs N)) = scat (xs N) m - INR (length (xs N)) *: ((xbar (xs N) - m) *m (xbar (xs N) - m)^T).
Proof.
  apply/matrixP => i j. rewrite [in RHS]mxE [X in _ + X]mxE [X in - X]mxE outerE !scat_entry.
  rewrite (vsum_xbar (proj1 U N)) -[seq.size (xs N)]/(length (xs N)). move: (xbar (xs N)) (ssq _ _ _) (INR _) => b q r. rewrite !mxE. toR. ring.
Qed.
Lemma psi_niw_lim : mx_lim (fun N => w xs N *: psi_niw mu k psi (xs N)) S.
Proof.
  have L0 v : mx_lim (fun N => xbar (xs N) - v) (m - v) by apply: mx_lim_add; [exact: xbar_tends | exact: mx_lim_const].
  have LO v : mx_lim (fun N => (xbar (xs N) - v) *m (xbar (xs N) - v)^T) ((m - v) *m (m - v)^T).
  { apply: mx_lim_mul; [exact: L0 | apply: mx_lim_tr; exact: L0]. }
  have Z : mx_lim (fun N => w xs N *: psi + (w xs N *: scat (xs N) m + (- ((xbar (xs N) - m) *m (xbar (xs N) - m)^T)
     + c N *: ((xbar (xs N) - mu) *m (xbar (xs N) - mu)^T)))) (S + (- ((m - m) *m (m - m)^T) + 0)).
  { apply: shrink_lim; first exact: w_lim. apply: mx_lim_add; first exact: (scat_lim HS).
    apply: mx_lim_add; first by apply: mx_lim_opp; exact: LO. apply: vanish_lim; [exact: c_lim | exact: LO]. }
  rewrite subrr mul0mx oppr0 !addr0 in Z. apply: mx_lim_ext Z => N.
  rewrite /psi_niw scat_shift !scalerDr -!addrA. congr (_ + (_ + (_ + _))).
  - rewrite scalerN scalerA. toR. by rewrite (w_count U) scale1r.
  - rewrite scalerA. congr (_ *: _). have C := w_count U N. rewrite /c. toR.
    have K := k_pos N. transitivity ((w xs N * INR (length (xs N))) * (k / k_niw k (xs N)))%Re; first by rewrite C Rmult_1_l.
    rewrite -[seq.size (xs N)]/(length (xs N)). rewrite /Rdiv. ring.
Qed.
End NIWLimit.

Lemma multivariate_normal_limit n outer X prior (xs : nat -> list 'cV[R]_n) (mu m : 'cV[R]_n) k nu (psi S : 'M[R]_n) :
  makes_outer outer -> unlimited xs -> (forall N, holds_mx (X N) (rows (xs N))) -> holds_niw prior mu k nu psi ->
  posdef psi -> (INR n - 1 < nu)%Re -> (0 < k)%Re ->
  (forall i, average_tends xs (fun x => x i 0) (m i 0)) ->
  (forall i j, average_tends xs (fun x => ((x i 0%R - m i 0%R) * (x j 0%R - m j 0%R))%Re) (S i j)) -> posdef S ->
  exists (mus : nat -> 'cV[R]_n) Ss dens,
    (forall N, exists post pred, multivariate_normal (X N) prior outer = Ok post /\
       ((2 <= length (xs N))%N -> is_vec_cone_mean (niw_pdf_of (n := n) post) (mus N, Ss N)) /\
       multivariate_normal_predictive post = Ok pred /\
       dens N = mv_pdf Flat (n := n) (MultivariateStudentT_dist pred)) /\
    mx_lim mus m /\ mx_lim Ss S /\ forall x, is_lim_seq (fun N => dens N x) (mvn_pdf m S x).
Proof.
  move=> Ho U HX Hp PP Hn Hk Hm HS PS.
  pose K N := k_niw k (xs N). pose V N := (nu + INR (length (xs N)))%Re. pose P N := psi_niw mu k psi (xs N).
  have PK N : (0 < K N)%Re by exact: k_pos.
  have PV N : (0 < df_niw n (V N))%Re by rewrite /df_niw /V; have := count_pos U N; lra.
  have PPN N : posdef (P N) by apply: psi_niw_posdef => //; exact: (proj1 U).
  exists (fun N => mu_niw mu k (xs N)), (fun N => (/ ((nu - INR n - 1) + INR (length (xs N))))%Re *: P N),
    (fun N => mvt_pdf (mu_niw mu k (xs N)) (scale_niw (K N) (V N) (P N)) (df_niw n (V N))).
  have Lm := mu_niw_lim mu U Hk Hm. have LP := psi_niw_lim mu psi U Hk Hm HS.
  split; last (split; first exact: Lm); last (split; first by exact: mean_of_scaled).
  - move=> N. case: (mvn_computes Ho (HX N) Hp) => post [E H]. case: (mvn_predictive_computes H) => pred [E2 H2].
    exists post, pred. split; first exact: E. split; last by split; [exact: E2 | rewrite (mv_pdf_mvt H2)].
    move=> L2. have H3 : (2 <= INR (length (xs N)))%Re by apply: (le_INR 2); exact/leP.
    case: (NormalInverseWishart_moments H (PPN N) ltac:(lra) (PK N)) => _ /(_ ltac:(lra)).
    have -> // : (nu + INR (length (xs N)) - INR n - 1)%Re = (nu - INR n - 1 + INR (length (xs N)))%Re by ring.
  - move=> x. apply: mvt_pdf_lim => //.
    + have Z : mx_lim (fun N => (1 + / K N)%Re *: ((/ ((nu - INR n + 1) + INR (length (xs N))))%Re *: P N)) ((1 + 0)%Re *: S).
      { apply: mx_lim_scale; last exact: mean_of_scaled. apply: is_lim_seq_plus'; first exact: is_lim_seq_const.
        have -> : Finite 0%Re = Finite (0 / 1)%Re by congr Finite; field.
        apply: (is_lim_seq_ext (fun N => (1 / K N)%Re)); first by move=> N; rewrite /Rdiv Rmult_1_l.
        apply: (div_lim (w := w xs)); [by move=> N; exact: w_pos | | exact: df_lim | lra].
        apply: is_lim_seq_ext (w_lim U) => N. by rewrite Rmult_1_r. }
      rewrite Rplus_0_r scale1r in Z. apply: mx_lim_ext Z => N. rewrite scalerA /scale_niw. congr (_ *: _). toR.
      have := PK N. have := PV N. rewrite /df_niw /V => V1 K1.
      have -> : (nu - INR n + 1 + INR (length (xs N)) = nu + INR (length (xs N)) - INR n + 1)%Re by ring. field. lra.
    + move=> N. apply: posdef_scale => //. apply: Rdiv_lt_0_compat; first by have := PK N; lra. exact: Rmult_lt_0_compat.
    + case: U => _ Hi. apply: (is_lim_seq_ext (fun N => ((nu - INR n + 1) + INR (length (xs N)))%Re)).
      * move=> N. rewrite /df_niw /V. ring.
      * exact: lim_add_inf.
Qed.
