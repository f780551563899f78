(** Means and covariances of the multivariate normal and t densities. *)

From Coq Require Import Reals ZArith Lra List.
From Coquelicot Require Import Coquelicot.
From mathcomp Require Import all_ssreflect all_algebra.
From Verif Require Import Spec.Special Spec.Densities.
From Verif Require Import Analysis.RField Spec.Matrices Spec.Wishart Analysis.Posdef Spec.VectorMoments Analysis.RealAux
  Analysis.GammaBeta Analysis.GammaFacts Analysis.Regression Analysis.MultiGauss Analysis.InvWishart Analysis.RadialMoments.
Delimit Scope R_scope with Re.

Set Implicit Arguments.
Unset Strict Implicit.
Unset Printing Implicit Defensive.
Import GRing.Theory.
Local Open Scope ring_scope.

(** ** coordinates as linear forms *)
Lemma dot_delta n (i : 'I_n) (v : 'cV[R]_n) : dot (delta_mx i 0) v = v i 0.
Proof.
  rewrite /dot trmx_delta mxE (bigD1 i) //= big1 ?addr0; last first.
  { move=> j Hj. rewrite mxE eqxx /=. rewrite (negbTE Hj). by rewrite mul0r. }
  by rewrite mxE !eqxx mul1r.
Qed.
Lemma dot_addl n (u v w : 'cV[R]_n) : dot (u + v) w = (dot u w + dot v w)%Re.
Proof. by rewrite dotC dotD !(dotC w). Qed.
Lemma dot_sub n (w u v : 'cV[R]_n) : dot w (u - v) = (dot w u - dot w v)%Re.
Proof. by rewrite dotD dotN. Qed.
Lemma quad_delta n (A : 'M[R]_n) i j : bil A (delta_mx i 0) (delta_mx j 0) = A i j.
Proof.
  have -> : bil A (delta_mx i 0) (delta_mx j 0) = dot (delta_mx i 0) (A *m delta_mx j 0) by rewrite /bil /dot mulmxA.
  rewrite dot_delta -colE mxE. by [].
Qed.

Section FromSquares.
Variables (n : nat) (f : 'cV[R]_n -> R) (mu : 'cV[R]_n).
Hypothesis M1 : forall w c, is_vec_int (fun x => ((c + dot w (x - mu)) * f x)%Re) c.
Lemma mean_of_linear : is_vec_mean f mu.
Proof.
  move=> i. apply: is_vec_int_ext (M1 (delta_mx i 0) (mu i 0)) => x. rewrite dot_delta. congr (_ * _)%Re.
  rewrite !mxE. toR. ring.
Qed.
Variable S : 'M[R]_n.
Hypothesis SS : S^T = S.
Hypothesis M2 : forall w, is_vec_int (fun x => ((0 + dot w (x - mu)) ^ 2 * f x)%Re) (quad S w).
Lemma cov_entries i j : is_vec_int (fun x => ((x i 0%R - mu i 0%R) * (x j 0%R - mu j 0%R) * f x)%Re) (S i j).
Proof.
  set u : 'cV[R]_n := delta_mx i 0. set v : 'cV[R]_n := delta_mx j 0.
  have H := is_vec_int_plus (is_vec_int_scal (/ 2)%Re (M2 (u + v))) (is_vec_int_scal (- / 2)%Re (is_vec_int_plus (M2 u) (M2 v))).
  have E : (/ 2 * quad S (u + v)%R + - / 2 * (quad S u + quad S v) = S i j)%Re.
  { rewrite quad_add // -(quad_delta S i j) -/u -/v. field. }
  rewrite E in H. apply: is_vec_int_ext H => x. rewrite dot_addl !dot_delta.
  have -> : (x - mu) i 0 = (x i 0%R - mu i 0%R)%Re by rewrite !mxE.
  have -> : (x - mu) j 0 = (x j 0%R - mu j 0%R)%Re by rewrite !mxE. field.
Qed.
Lemma cov_of_square : is_vec_cov f S.
Proof. exists mu. split; first exact: mean_of_linear. exact: cov_entries. Qed.
(** a quadratic form has the trace as its mean *)
Lemma is_vec_int_sum k (g : 'I_k -> 'cV[R]_n -> R) (l : 'I_k -> R) :
  (forall i, is_vec_int (g i) (l i)) -> is_vec_int (fun x => \sum_(i < k) g i x) (\sum_(i < k) l i).
Proof.
  elim: k g l => [|k IH] g l H.
  - rewrite big_ord0. have := is_vec_int_scal 0%Re (M1 0 0%Re). have -> : (0 * 0 = 0)%Re by ring.
    apply: is_vec_int_ext => x. rewrite big_ord0. toR. ring.
  - rewrite big_ord_recl. have := is_vec_int_plus (H ord0) (IH _ _ (fun i => H (lift ord0 i))).
    apply: is_vec_int_ext => x. by rewrite big_ord_recl.
Qed.
Lemma quad_sum (G : 'M[R]_n) (v : 'cV[R]_n) : quad G v = \sum_(i < n) \sum_(j < n) G i j * (v i 0 * v j 0).
Proof.
  rewrite /quad mxE exchange_big /=. apply: eq_bigr => j _. rewrite mxE big_distrl /=.
  apply: eq_bigr => i _. rewrite !mxE [v i 0 * _]mulrC mulrA. by [].
Qed.
Lemma quad_mean (G : 'M[R]_n) w c :
  is_vec_int (fun x => ((c + dot w (x - mu) + quad G (x - mu)) * f x)%Re) (c + \tr (G *m S))%Re.
Proof.
  have -> : \tr (G *m S) = \sum_(i < n) \sum_(j < n) (G i j * S j i).
  { rewrite /mxtrace. apply: eq_bigr => i _. by rewrite mxE. }
  have H i j := is_vec_int_scal (G i j) (cov_entries j i).
  have := is_vec_int_plus (M1 w c) (is_vec_int_sum (fun i => is_vec_int_sum (fun j => H i j))).
  apply: is_vec_int_ext => x. rewrite quad_sum.
  have -> : (\sum_(i < n) \sum_(j < n) (G i j * ((x j 0%R - mu j 0%R) * (x i 0%R - mu i 0%R) * f x))%Re)
    = (\sum_(i < n) \sum_(j < n) G i j * ((x - mu) i 0 * (x - mu) j 0)) * f x.
  { rewrite big_distrl /=. apply: eq_bigr => i _. rewrite big_distrl /=. apply: eq_bigr => j _. rewrite !mxE. toR. ring. }
  rewrite RmultE. move: (\sum_(i < n) _) (dot _ _) => a b. ring.
Qed.
End FromSquares.

(** ** multivariate normal *)
Section Mvn.
Variables (n : nat) (mu : 'cV[R]_n) (cov : 'M[R]_n).
Hypothesis PD : posdef cov.
Let Z : R := (/ sqrt ((2 * PI) ^ n * \det cov))%Re.
Lemma mvn_Z : (Z * sqrt ((2 * PI) ^ n / \det (invmx cov)) = 1)%Re.
Proof.
  rewrite /Z det_inv_pos //. have Hd := det_pos PD. have Hc := mvn_const_pos PD.
  have -> : (((2 * PI) ^ n / / \det cov) = (2 * PI) ^ n * \det cov)%Re by field; lra. apply: Rinv_l. lra.
Qed.
Lemma mvn_linear w c : is_vec_int (fun x => ((c + dot w (x - mu)) * mvn_pdf mu cov x)%Re) c.
Proof.
  have H := is_vec_int_scal Z (gauss_mean mu w c (posdef_inv PD)).
  have E : (Z * (c * sqrt ((2 * PI) ^ n / \det (invmx cov))) = c)%Re.
  { have E := mvn_Z. transitivity (c * (Z * sqrt ((2 * PI) ^ n / \det (invmx cov))))%Re; first ring. by rewrite E Rmult_1_r. }
  rewrite E in H. apply: is_vec_int_ext H => x. rewrite /mvn_pdf /Rdiv -/Z. ring.
Qed.
Lemma mvn_square w : is_vec_int (fun x => ((0 + dot w (x - mu)) ^ 2 * mvn_pdf mu cov x)%Re) (quad cov w).
Proof.
  have H := is_vec_int_scal Z (gauss_square mu w 0%Re (posdef_inv PD)). rewrite invmxK in H.
  have E : (Z * ((0 ^ 2 + quad cov w) * sqrt ((2 * PI) ^ n / \det (invmx cov))) = quad cov w)%Re.
  { have E := mvn_Z. transitivity (quad cov w * (Z * sqrt ((2 * PI) ^ n / \det (invmx cov))))%Re; last by rewrite E Rmult_1_r.
    move: (quad cov w) => qq. ring. }
  rewrite E in H. apply: is_vec_int_ext H => x. rewrite /mvn_pdf /Rdiv -/Z. ring.
Qed.
Lemma mvn_density : is_vec_density (mvn_pdf mu cov).
Proof. split; last exact: mvn_normalised. move=> x. apply: Rlt_le. exact: mvn_pdf_pos. Qed.
Lemma mvn_mean : is_vec_mean (mvn_pdf mu cov) mu.
Proof. apply: mean_of_linear => w c. exact: mvn_linear. Qed.
Lemma mvn_cov : is_vec_cov (mvn_pdf mu cov) cov.
Proof.
  apply: (@cov_of_square _ _ mu) => [w c||w]; [exact: mvn_linear | exact: posdef_sym | exact: mvn_square].
Qed.
End Mvn.

(** ** multivariate t *)
Lemma mvt_pdf_pos n (mu : 'cV[R]_n) S nu x : posdef S -> (0 < nu)%Re -> (0 < mvt_pdf mu S nu x)%Re.
Proof.
  move=> PS Hn. have HI := pos_INR n. have HS := det_pos PS. have Hpi := PI_RGT_0. rewrite /mvt_pdf.
  apply: Rmult_lt_0_compat; last exact: Rpower_pos.
  apply: Rdiv_lt_0_compat; first by apply: Gamma_fun_pos; lra.
  apply: Rmult_lt_0_compat; first by apply: Gamma_fun_pos; lra. apply: sqrt_lt_R0. apply: Rmult_lt_0_compat => //.
  apply: pow_lt. exact: Rmult_lt_0_compat.
Qed.
Lemma mvt_sq n (mu : 'cV[R]_n) S nu w : posdef S -> (2 < nu)%Re ->
  is_vec_int (fun x => ((0 + dot w (x - mu)) ^ 2 * mvt_pdf mu S nu x)%Re) (quad ((nu / (nu - 2))%Re *: S) w).
Proof.
  move=> PS Hn. have H0 : (0 < nu)%Re by lra. have := mvt_square mu PS H0 w 0%Re Hn. rewrite quadZA.
  have -> : (0 ^ 2 + nu / (nu - 2) * quad S w = nu / (nu - 2) * quad S w)%Re by move: (quad S w) => qq; ring. by [].
Qed.
Lemma mvt_sym n (S : 'M[R]_n) (c : R) : posdef S -> (c *: S)^T = c *: S.
Proof. move=> PS. by rewrite linearZ /= (posdef_sym PS). Qed.
Lemma mvt_cov n (mu : 'cV[R]_n) S nu : posdef S -> (2 < nu)%Re -> is_vec_cov (mvt_pdf mu S nu) ((nu / (nu - 2))%Re *: S).
Proof.
  move=> PS Hn. have H0 : (0 < nu)%Re by lra. have H1 : (1 < nu)%Re by lra.
  apply: (@cov_of_square _ _ mu) => [w c||w]; [exact: mvt_mean | exact: mvt_sym | exact: mvt_sq].
Qed.
Lemma mvt_quad n (mu : 'cV[R]_n) S nu G w c : posdef S -> (2 < nu)%Re ->
  is_vec_int (fun x => ((c + dot w (x - mu) + quad G (x - mu)) * mvt_pdf mu S nu x)%Re) (c + \tr (G *m ((nu / (nu - 2))%Re *: S)))%Re.
Proof.
  move=> PS Hn. have H0 : (0 < nu)%Re by lra. have H1 : (1 < nu)%Re by lra.
  apply: quad_mean => [w' c'||w']; [exact: mvt_mean | exact: mvt_sym | exact: mvt_sq].
Qed.
