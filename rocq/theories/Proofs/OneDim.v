(** The array models on data where they reduce to scalar ones: diagonal
    covariances, one dimension, a design matrix of ones. *)

From Coq Require Import Reals ZArith Lra List.
From mathcomp Require Import all_ssreflect all_algebra.
From Verif Require Import Model.Num Model.Py Model.Dists Model.ScipyDist Model.Models Model.NdArray Model.MatrixModel.
From Verif Require Import Spec.Special Spec.Densities Spec.Bayes.
From Verif Require Import Analysis.RField Spec.Matrices Spec.Wishart Analysis.Posdef Spec.Arrays Spec.OneDim Proofs.Arrays
  Analysis.Regression Analysis.MvnBayes Analysis.MultiGauss Analysis.WishartBayes
  Proofs.LinReg Proofs.MvNormal Proofs.Wishart.
Delimit Scope R_scope with Re.

Set Implicit Arguments.
Unset Strict Implicit.
Unset Printing Implicit Defensive.
Import GRing.Theory.
Local Open Scope ring_scope.

(** ** diagonal matrices *)
Lemma diag_quad n (v : 'rV[R]_n) u : quad (diag_mx v) u = \sum_i (v 0%R i * (u i 0%R * u i 0%R)).
Proof.
  rewrite /quad mul_mx_diag mxE. apply: eq_bigr => i _. rewrite !mxE. toR. ring.
Qed.
Lemma diag_posdef n (v : 'rV[R]_n) : (forall i, (0 < v 0%R i)%Re) -> posdef (diag_mx v).
Proof.
  move=> H. split; first exact: tr_diag_mx. move=> u Hu. rewrite diag_quad.
  have [i Hi] : exists i, u i 0%R != 0.
  { case: (boolP [exists i, u i 0%R != 0]) => [/existsP //|/existsPn N]. case: Hu.
    apply/matrixP => i j. rewrite ord1 mxE. by move: (N i); rewrite negbK => /eqP. }
  rewrite (bigD1 i) //=.
  have P1 : (0 < v 0%R i * (u i 0%R * u i 0%R))%Re.
  { apply: Rmult_lt_0_compat; first exact: H. have := Rsqr_pos_lt (u i 0%R). rewrite /Rsqr. apply.
    move=> E. move: Hi. by rewrite E eqxx. }
  have P2 : (0 <= \sum_(j < n | j != i) (v 0%R j * (u j 0%R * u j 0%R)))%Re.
  { elim/big_ind: _ => [|x y Hx Hy|j _]; first by toR; lra.
    - toR. lra.
    - toR. apply: Rmult_le_pos; first exact: Rlt_le. exact: Rle_0_sqr. }
  exact: Rplus_lt_le_0_compat P1 P2.
Qed.
Lemma diag_inv n (v : 'rV[R]_n) : (forall i, v 0%R i <> 0) ->
  invmx (diag_mx v) = diag_mx (\row_i (/ v 0%R i)%Re).
Proof.
  move=> H. have E : diag_mx v *m diag_mx (\row_i (/ v 0%R i)%Re) = 1%:M.
  { apply/matrixP => i j. rewrite mul_diag_mx !mxE. case: (i =P j) => [_|_]; last by rewrite !mulr0n mulr0.
    rewrite !mulr1n. toR. exact: Rinv_r. }
  have [U _] := mulmx1_unit E. by rewrite -[RHS](mulKmx U) E mulmx1.
Qed.

Lemma vsum_coord n (i : 'I_n) xs : vsum xs i 0 = sumR (coord i xs).
Proof.
  elim: xs => [|x xs IH]; first by rewrite /vsum big_nil mxE.
  by rewrite /vsum big_cons -/(vsum xs) mxDE IH.
Qed.

Lemma coordinates_post n (mu0 : 'cV[R]_n) (v sd : 'rV[R]_n) xs :
  (forall i, (0 < v 0%R i)%Re) -> (forall i, (0 < sd 0%R i)%Re) ->
  let p i := normal_known_variance (sumR (coord i xs)) (INR (length xs)) (v 0%R i) (mkNormal (mu0 i 0%R) (sd 0%R i)) in
  let P := P_post (diag_mx (\row_i (/ vars sd 0%R i)%Re)) (diag_mx (\row_i (/ v 0%R i)%Re)) xs in
  (forall i, (0 < Normal_sigma (p i))%Re) /\
  m_post mu0 (diag_mx (\row_i (/ vars sd 0%R i)%Re)) (diag_mx (\row_i (/ v 0%R i)%Re)) xs =
    \col_i Normal_mu (p i) /\
  invmx P = diag_mx (vars (\row_i Normal_sigma (p i))).
Proof.
  move=> Hv Hs p P. have HN : (0 <= INR (length xs))%Re by exact: pos_INR.
  have W i : (0 < / (sd 0%R i ^ 2) + INR (length xs) / v 0%R i)%Re.
  { have := Rinv_0_lt_compat _ (pow_lt _ 2 (Hs i)).
    have : (0 <= INR (length xs) / v 0%R i)%Re by apply: Rmult_le_pos => //; apply: Rlt_le; exact: Rinv_0_lt_compat.
    lra. }
  have EP : P = diag_mx (\row_i (/ (sd 0%R i ^ 2) + INR (length xs) / v 0%R i)%Re).
  { rewrite /P /P_post. apply/matrixP => i j. rewrite !mxE. case: (i =P j) => [_|_]; last by rewrite !mulr0n mulr0 addr0.
    by rewrite !mulr1n. }
  have EI : invmx P = diag_mx (\row_i (/ (/ (sd 0%R i ^ 2) + INR (length xs) / v 0%R i))%Re).
  { rewrite EP diag_inv; last by move=> i; rewrite mxE; apply: Rgt_not_eq; exact: W.
    congr diag_mx. apply/matrixP => i j. by rewrite !mxE. }
  have Ep i : p i = mkNormal ((mu0 i 0%R / sd 0%R i ^ 2 + sumR (coord i xs) / v 0%R i) / (/ (sd 0%R i ^ 2) + INR (length xs) / v 0%R i))%Re
                     (sqrt (/ (/ (sd 0%R i ^ 2) + INR (length xs) / v 0%R i)))%Re.
  { have D1 x : (1 / x = / x)%Re by rewrite /Rdiv Rmult_1_l.
    rewrite /p /normal_known_variance /nsq /nlit /nsqrt /ndiv /nadd /NumR. by rewrite !D1. }
  split; [|split].
  - move=> i. rewrite Ep /=. apply: sqrt_lt_R0. apply: Rinv_0_lt_compat. exact: W.
  - rewrite /m_post -/P EI. apply/matrixP => i j. rewrite ord1 !mul_diag_mx !mxE Ep /=. rewrite -vsum_coord. toR.
    rewrite /Rdiv. ring.
  - rewrite EI. congr diag_mx. apply/matrixP => i j. rewrite !mxE Ep. cbn [Normal_sigma].
    rewrite -(Rsqr_pow2 (sqrt _)) Rsqr_sqrt //. apply: Rlt_le. apply: Rinv_0_lt_compat. exact: W.
Qed.

Section Known.
Variables (n : nat) (l : layout) (np_inv inv : nd R -> res (nd R)).
Hypothesis Hnp : inverts np_inv.
Hypothesis Hinv : inverts inv.

Lemma vars_pos (sd : 'rV[R]_n) : (forall i, (0 < sd 0%R i)%Re) -> forall i, (0 < vars sd 0%R i)%Re.
Proof. move=> H i. rewrite mxE. exact: pow_lt. Qed.
Lemma pos_neq (v : 'rV[R]_n) : (forall i, (0 < v 0%R i)%Re) -> forall i, v 0 i <> 0.
Proof. move=> H i. exact: Rgt_not_eq. Qed.

Lemma known_covariance_coordinates (xs : list 'cV[R]_n) s cov prior mu0 (sd v : 'rV[R]_n) :
  (forall i, (0 < v 0%R i)%Re) -> (forall i, (0 < sd 0%R i)%Re) ->
  holds_sample l xs s -> holds_mx cov (diag_mx v) -> holds_mvn l prior mu0 (diag_mx (vars sd)) ->
  exists post (mu' : 'cV[R]_n) (sd' : 'rV[R]_n),
    multivariate_normal_known_covariance np_inv s.1 s.2 cov prior inv = Ok post /\
    holds_mvn l post mu' (diag_mx (vars sd')) /\ (forall i, (0 < sd' 0%R i)%Re) /\
    forall i, normal_known_variance (sumR (coord i xs)) (INR (length xs)) (v 0 i) (mkNormal (mu0 i 0) (sd 0 i))
              = mkNormal (mu' i 0) (sd' 0 i).
Proof.
  move=> Hv Hs Hx Hc Hp.
  case: (known_covariance_computes Hnp Hinv Hx Hc Hp (diag_posdef (vars_pos Hs)) (diag_posdef Hv)) => post [E H].
  rewrite (diag_inv (pos_neq Hv)) (diag_inv (pos_neq (vars_pos Hs))) in H.
  case: (coordinates_post mu0 xs Hv Hs) => P1 [E1 E2]. rewrite E1 E2 in H.
  eexists post, _, _. split; first exact: E. split; first exact: H. split.
  - move=> i. rewrite mxE. exact: P1.
  - move=> i. by rewrite !mxE.
Qed.

Lemma known_precision_coordinates (xs : list 'cV[R]_n) s prec prior mu0 (sd w : 'rV[R]_n) :
  (forall i, (0 < w 0%R i)%Re) -> (forall i, (0 < sd 0%R i)%Re) ->
  holds_sample l xs s -> holds_mx prec (diag_mx w) -> holds_mvn l prior mu0 (diag_mx (vars sd)) ->
  exists post (mu' : 'cV[R]_n) (sd' : 'rV[R]_n),
    multivariate_normal_known_precision np_inv s.1 s.2 prec prior inv = Ok post /\
    holds_mvn l post mu' (diag_mx (vars sd')) /\ (forall i, (0 < sd' 0%R i)%Re) /\
    forall i, normal_known_precision (sumR (coord i xs)) (INR (length xs)) (w 0 i) (mkNormal (mu0 i 0) (sd 0 i))
              = mkNormal (mu' i 0) (sd' 0 i).
Proof.
  move=> Hw Hs Hx Hc Hp.
  case: (known_precision_computes Hnp Hinv Hx Hc Hp (diag_posdef (vars_pos Hs)) (diag_posdef Hw)) => post [E H].
  rewrite (diag_inv (pos_neq (vars_pos Hs))) in H.
  pose v : 'rV[R]_n := \row_i (1 / w 0%R i)%Re.
  have Hv i : (0 < v 0%R i)%Re by rewrite mxE; apply: Rdiv_lt_0_compat => //; lra.
  have Ew : diag_mx w = diag_mx (\row_i (/ v 0%R i)%Re).
  { congr diag_mx. apply/matrixP => i j. rewrite ord1 !mxE. by rewrite /Rdiv Rmult_1_l Rinv_inv. }
  rewrite Ew in H. case: (coordinates_post mu0 xs Hv Hs) => P1 [E1 E2]. rewrite E1 E2 in H.
  eexists post, _, _. split; first exact: E. split; first exact: H. split.
  - move=> i. rewrite mxE. exact: P1.
  - move=> i. rewrite /normal_known_precision !mxE. by [].
Qed.

Lemma pred_sd (v s : R) : (0 < v)%Re -> (0 < s)%Re -> (sqrt (v + s ^ 2) ^ 2 = s ^ 2 + v)%Re /\ (0 < sqrt (v + s ^ 2))%Re.
Proof.
  move=> Hv Hs. have Hs2 := pow_lt s 2 Hs. have Hp : (0 < v + s ^ 2)%Re by lra. split; last exact: sqrt_lt_R0.
  rewrite -Rsqr_pow2 Rsqr_sqrt; lra.
Qed.

Lemma known_covariance_predictive_coordinates d cov mu0 (sd v : 'rV[R]_n) :
  (forall i, (0 < v 0%R i)%Re) -> (forall i, (0 < sd 0%R i)%Re) ->
  holds_mx cov (diag_mx v) -> holds_mvn l d mu0 (diag_mx (vars sd)) ->
  exists pred (mu' : 'cV[R]_n) (sd' : 'rV[R]_n),
    multivariate_normal_known_covariance_predictive d cov = Ok pred /\
    holds_mvn l pred mu' (diag_mx (vars sd')) /\ (forall i, (0 < sd' 0%R i)%Re) /\
    forall i, normal_known_variance_predictive (v 0 i) (mkNormal (mu0 i 0) (sd 0 i)) = mkNormal (mu' i 0) (sd' 0 i).
Proof.
  move=> Hv Hs Hc /holds_mvn_elim [Hm Hc0]. rewrite /multivariate_normal_known_covariance_predictive.
  case: (cm_add (c_ok Hc0) (c_ok Hc)) => cp [-> Hcp]. cbn [bind].
  exists (mkMultivariateNormal (MultivariateNormal_mu d) cp), mu0, (\row_i sqrt (v 0%R i + sd 0%R i ^ 2)%Re).
  split=> //. split; last split.
  - exists (MultivariateNormal_mu d), cp. split=> //. split=> //.
    rewrite -raddfD /= in Hcp. have <- // : vars sd + v = vars (\row_i sqrt (v 0%R i + sd 0%R i ^ 2)%Re).
    apply/matrixP => i j. rewrite ord1 !mxE. by case: (pred_sd (Hv j) (Hs j)) => -> _.
  - move=> i. rewrite mxE. by case: (pred_sd (Hv i) (Hs i)).
  - move=> i. by rewrite !mxE.
Qed.

Lemma known_precision_predictive_coordinates d prec mu0 (sd w : 'rV[R]_n) :
  (forall i, (0 < w 0%R i)%Re) -> (forall i, (0 < sd 0%R i)%Re) ->
  holds_mx prec (diag_mx w) -> holds_mvn l d mu0 (diag_mx (vars sd)) ->
  exists pred (mu' : 'cV[R]_n) (sd' : 'rV[R]_n),
    multivariate_normal_known_precision_predictive d prec inv = Ok pred /\
    holds_mvn l pred mu' (diag_mx (vars sd')) /\ (forall i, (0 < sd' 0%R i)%Re) /\
    forall i, normal_known_precision_predictive (w 0 i) (mkNormal (mu0 i 0) (sd 0 i)) = mkNormal (mu' i 0) (sd' 0 i).
Proof.
  move=> Hw Hs Hc /holds_mvn_elim [Hm Hc0]. rewrite /multivariate_normal_known_precision_predictive.
  case: (Hinv Hc (diag_posdef Hw)) => c [-> Hci]. rewrite (diag_inv (pos_neq Hw)) in Hci.
  case: (cm_add (c_ok Hc0) (c_ok Hci)) => cp [-> Hcp]. cbn [bind].
  have Hv i : (0 < 1 / w 0%R i)%Re by apply: Rdiv_lt_0_compat => //; lra.
  exists (mkMultivariateNormal (MultivariateNormal_mu d) cp), mu0, (\row_i sqrt (1 / w 0%R i + sd 0%R i ^ 2)%Re).
  split=> //. split; last split.
  - exists (MultivariateNormal_mu d), cp. split=> //. split=> //.
    rewrite -raddfD /= in Hcp.
    have <- // : vars sd + \row_i (/ w 0%R i)%Re = vars (\row_i sqrt (1 / w 0%R i + sd 0%R i ^ 2)%Re).
    apply/matrixP => i j. rewrite ord1 !mxE. case: (pred_sd (Hv j) (Hs j)) => -> _.
    by rewrite /Rdiv Rmult_1_l.
  - move=> i. rewrite mxE. by case: (pred_sd (Hv i) (Hs i)).
  - move=> i. by rewrite !mxE.
Qed.
End Known.

(** ** one dimension, known mean *)
Lemma scat_col1 data m : scat (col1 data) (m%:M) 0 0 = sumR (List.map (fun x => ((x - m) ^ 2)%Re) data).
Proof.
  elim: data => [|x data IH]; first by rewrite /scat big_nil mxE.
  rewrite /scat big_cons -/(scat (col1 data) m%:M) mxDE IH -raddfB /= outerE !scal_00 /= Rmult_1_r. by [].
Qed.
Lemma centred_squares data m :
  sumR (List.map (fun x => ((x - m) ^ 2)%Re) data)
  = (sumR (List.map (fun x => x ^ 2) data) - 2 * m * sumR data + INR (length data) * m ^ 2)%Re.
Proof.
  elim: data => [|x data IH]; first by rewrite /=; ring.
  cbn [List.map sumR List.fold_right]. rewrite -/(sumR _) in IH *.
  rewrite [length _](erefl : _ = (length data).+1) S_INR.
  change (sumR (x :: data)) with (x + sumR data)%Re.
  change (((x - m) ^ 2 + sumR (List.map (fun x => ((x - m) ^ 2)%Re) data))%Re
    = ((x ^ 2 + sumR (List.map (fun x => (x ^ 2)%Re) data)) - 2 * m * (x + sumR data) + (INR (length data) + 1) * m ^ 2)%Re).
  rewrite IH. ring.
Qed.

Lemma known_mean_one_dim X muA prior data (m nu p : R) :
  holds_mx X (rows (col1 data)) -> holds_vec Flat muA (m%:M : 'cV[R]_1) -> holds_iw prior nu (p%:M : 'M[R]_1) ->
  exists post nu' p', multivariate_normal_known_mean X muA prior = Ok post /\
    holds_iw post nu' (p'%:M : 'M[R]_1) /\
    normal_known_mean (sumR data) (sumR (List.map (fun x => (x ^ 2)%Re) data)) (INR (length data)) m
      (VIG (mkInverseGamma (nu / 2)%Re (p / 2)%Re)) = VIG (mkInverseGamma (nu' / 2)%Re (p' / 2)%Re).
Proof.
  move=> HX Hm Hp. case: (known_mean_computes HX Hm Hp) => post [E H].
  rewrite (one_dim_mx (A := psi_km _ _ _) erefl) in H. eexists post, _, _. split; first exact: E. split; first exact: H.
  rewrite /normal_known_mean /normal_known_mean_inverse_gamma_prior /=. f_equal.
  have HN : INR (length (col1 data)) = INR (length data) by rewrite /col1 List.map_length.
  f_equal; first by rewrite HN; field.
  rewrite /psi_km mxDE scal_00 scat_col1 centred_squares. toR. rewrite /nsq /=.
  field.
Qed.

(** ** regression on a constant *)
Lemma stats_ones data : stats (ones data) =
  ((INR (length data))%:M, (sumR data)%:M, (INR (length data) / 2)%Re,
   (sumR (List.map (fun x => (x ^ 2)%Re) data) / 2)%Re).
Proof.
  elim: data => [|x data IH].
  - rewrite /= /zero. f_equal; [f_equal; [f_equal|]|].
    + by rewrite raddf0.
    + by rewrite raddf0.
    + by rewrite /Rdiv Rmult_0_l.
    + by rewrite /Rdiv Rmult_0_l.
  - change (length (x :: data)) with (length data).+1. rewrite [stats _]/= IH S_INR /plus /stat1 /fst /snd.
    change (sumR (x :: data)) with (x + sumR data)%Re.
    change (sumR (List.map (fun y => (y ^ 2)%Re) (x :: data)))
      with (x ^ 2 + sumR (List.map (fun y => (y ^ 2)%Re) data))%Re.
    f_equal; [f_equal; [f_equal|]|].
    + by rewrite tr_scalar_mx mul1mx -raddfD /= addrC.
    + by rewrite scalemx1 -raddfD.
    + field.
    + field.
Qed.

Lemma regression_on_constant M l inv prior arrays data (m d a b : R) :
  inverts inv -> data <> [::] -> holds_data l (ones data) arrays ->
  holds_nig l prior (m%:M : 'cV[R]_1) (d%:M : 'M[R]_1) a b -> (0 < d)%Re ->
  exists post m' d' a' b',
    linear_regression arrays.1 arrays.2 prior inv = Ok post /\
    holds_nig l post (m'%:M : 'cV[R]_1) (d'%:M : 'M[R]_1) a' b' /\ (0 < d')%Re /\
    normal (sumR data) (sumR (List.map (fun x => (x ^ 2)%Re) data)) (INR (length data))
      (PNIG (M := M) (mkNormalInverseGamma m a b None (Some (/ d)%Re))) =
    Ok (PNIG (mkNormalInverseGamma m' a' b' None (Some (/ d')%Re))).
Proof.
  move=> Hinv Hne [HX Hy] Hp Hd.
  have PD : posdef (d%:M : 'M[R]_1) by rewrite -scalemx1; apply: posdef_scale => //; exact: posdef1.
  case: (linear_regression_computes Hinv HX Hy Hp PD) => post [E H].
  have HD := Di_post_posdef (design (ones data)) PD.
  have := nat_update (m%:M : 'cV[R]_1) a b (ones data) PD. rewrite stats_ones.
  set mu' := mu_post _ _ _ _ in H *. set Di' := invmx (D_post _ _) in H HD *.
  set a' := a_post _ _ in H *. set b' := b_post _ _ _ _ _ in H *.
  clearbody mu' Di' a' b'.
  set d' := Di' 0 0. set m' := mu' 0 0.
  have ED : Di' = d'%:M by exact: one_dim_mx.
  have EM : mu' = m'%:M by exact: one_dim_mx.
  have Hd' : (0 < d')%Re.
  { case: HD => _ /(_ 1%:M). rewrite /quad ED tr_scalar_mx mulmx1 mul1mx scal_00. apply.
    move/matrixP/(_ 0 0). rewrite !mxE. exact: R1_neq_R0. }
  clearbody d' m'. subst mu' Di'.
  rewrite /nat_of !invmx_scalar /plus -raddfD /=. move=> [E1 E2 E3 E4].
  have {}E1 : (/ d' = / d + INR (length data))%Re.
  { move: E1 => /matrixP/(_ 0 0). rewrite !scal_00. by toR. }
  have {}E2 : (/ d' * m' = / d * m + sumR data)%Re.
  { move: E2 => /matrixP/(_ 0 0). rewrite -!scalar_mxM -raddfD /= !scal_00. by toR. }
  move: E4. rewrite /quad !tr_scalar_mx -!scalar_mxM !scal_00. toR. move=> E4.
  have HN : (0 < INR (length data))%Re by apply: lt_0_INR; case: data Hne {HX Hy E H E1 E2 E3 E4} => // *; exact/ltP.
  exists post, m', d', a', b'. split=> //. split=> //. split=> //.
  have Hdi := Rinv_0_lt_compat _ Hd.
  have Em : ((/ d * m + INR (length data) * (sumR data / INR (length data))) / (/ d + INR (length data)) = m')%Re.
  { apply: (Rmult_eq_reg_l (/ d + INR (length data))); last lra. rewrite -E1 E2. field.
    have := Rinv_0_lt_compat _ Hd'. lra. }
  rewrite /normal /=. rewrite Em -E1 E3. do 3 f_equal.
  rewrite /nsq /= in E4 *. move: E4. move: (sumR (List.map _ data)) => c E4. lra.
Qed.

Lemma constant_predictive M l eye X dist (m d a b : R) : makes_eye eye ->
  holds_mx X (1%:M : 'M[R]_1) -> holds_nig l dist (m%:M : 'cV[R]_1) (d%:M : 'M[R]_1) a b ->
  (0 < d)%Re -> (0 < a)%Re -> (0 < b)%Re ->
  exists pred t,
    linear_regression_predictive dist X eye = Ok pred /\
    normal_predictive (PNIG (M := M) (mkNormalInverseGamma m a b None (Some (/ d)%Re))) = Ok t /\
    holds_mvt l pred ((StudentT_mu t)%:M : 'cV[R]_1) ((StudentT_sigma t ^ 2)%Re%:M : 'M[R]_1) (StudentT_nu t) /\
    (0 < StudentT_sigma t)%Re.
Proof.
  move=> He HX Hd Hdp Ha Hb.
  have PD : posdef (d%:M : 'M[R]_1) by rewrite -scalemx1; apply: posdef_scale => //; exact: posdef1.
  case: (linear_regression_predictive_marginal He HX Hd PD Ha Hb) => pred [mm [S [nu [E [H [_ [_ [E1 [E2 [E3 _]]]]]]]]]].
  exists pred. eexists. split=> //. split; first reflexivity. cbn [StudentT_mu StudentT_sigma StudentT_nu].
  have Hi := Rinv_0_lt_compat _ Hdp.
  have P : (0 < b * (/ d + 1) / (/ d * a))%Re by apply: Rdiv_lt_0_compat; apply: Rmult_lt_0_compat; lra.
  split; last by apply: sqrt_lt_R0.
  move: H. rewrite E1 E2 E3 mul1mx.
  have -> // : (b / a)%Re *: ((1%:M : 'M[R]_1) + 1%:M *m d%:M *m 1%:M^T) = ((sqrt (b * (/ d + 1) / (/ d * a)))^2)%Re%:M.
  rewrite -Rsqr_pow2 Rsqr_sqrt; last lra. rewrite mul1mx trmx1 mulmx1 -raddfD /= scale_scalar_mx. congr (_%:M).
  toR. field. lra.
Qed.
