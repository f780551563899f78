(** Total mass, means and covariances of the vector distributions. *)

From Coq Require Import Reals ZArith Lra List.
From Coquelicot Require Import Coquelicot.
From mathcomp Require Import all_ssreflect all_algebra.
From Verif Require Import Model.Num Model.Py Model.Dists Model.ScipyDist Model.Models Model.NdArray Model.MatrixModel.
From Verif Require Import Spec.Special Spec.Densities Spec.Calibration.
From Verif Require Import Analysis.RField Spec.Matrices Spec.Wishart Analysis.Posdef Spec.Arrays Spec.PrequentialArrays Spec.VectorMoments
  Proofs.Arrays Analysis.RealAux Analysis.Improper Analysis.GammaBeta Analysis.GammaFacts Analysis.Regression Analysis.MvnBayes Analysis.MultiGauss Analysis.InvWishart
  Analysis.WishartBayes Analysis.RadialMoments Analysis.VectorMoments Analysis.InvWishartMean Proofs.Calibration Proofs.Normalised Proofs.Joint Proofs.Pdfs Proofs.LinReg Proofs.MvNormal Proofs.Wishart Proofs.PrequentialArrays.
Delimit Scope R_scope with Re.

Set Implicit Arguments.
Unset Strict Implicit.
Unset Printing Implicit Defensive.
Import GRing.Theory.
Local Open Scope ring_scope.

(** ** the two vector distributions *)
Lemma MultivariateNormal_moments n l d (mu : 'cV[R]_n) cov : holds_mvn l d mu cov -> posdef cov ->
  let f := mv_pdf l (n := n) (MultivariateNormal_dist d) in is_vec_density f /\ is_vec_mean f mu /\ is_vec_cov f cov.
Proof.
  move=> H PD /=. rewrite (mv_pdf_mvn H). split; [exact: mvn_density | split; [exact: mvn_mean | exact: mvn_cov]].
Qed.

Lemma MultivariateStudentT_moments n l d (mu : 'cV[R]_n) S nu : holds_mvt l d mu S nu -> posdef S -> (0 < nu)%Re ->
  let f := mv_pdf l (n := n) (MultivariateStudentT_dist d) in
  is_vec_density f /\ ((1 < nu)%Re -> is_vec_mean f mu) /\ ((2 < nu)%Re -> is_vec_cov f ((nu / (nu - 2))%Re *: S)).
Proof.
  move=> H PS Hn /=. rewrite (mv_pdf_mvt H). split; [split|split].
  - move=> x. apply: Rlt_le. exact: mvt_pdf_pos.
  - exact: mvt_normalised.
  - move=> H1. apply: mean_of_linear => w c. exact: mvt_mean.
  - move=> H2. exact: mvt_cov.
Qed.

(** ** the joint distributions *)
Lemma iw_pdf_nonneg n nu (psi S : 'M[R]_n) : posdef psi -> (INR n - 1 < nu)%Re -> (0 <= iw_pdf nu psi S)%Re.
Proof.
  move=> PP Hn. rewrite iw_pdf_eq //. apply: Rmult_le_pos; last by apply: Rlt_le; apply: Rinv_0_lt_compat; exact: iw_const_pos.
  rewrite /iw_kernel. apply: Rmult_le_pos; apply: Rlt_le; [exact: Rpower_pos | exact: exp_pos].
Qed.
Lemma iw_of n d nu (psi : 'M[R]_n) : holds_iw d nu psi -> iw_pdf_of (n := n) d = iw_pdf nu psi.
Proof. move=> [df [sc [E [Hd Hs]]]]. by rewrite /iw_pdf_of E (num_of_sc Hd) (mx_of_holds Hs). Qed.
Lemma tr_delta n (S : 'M[R]_n) i j : \tr (delta_mx j i *m S) = S i j.
Proof.
  rewrite -(mul_delta_mx (0 : 'I_1)) -mulmxA mxtrace_mulC trace_mx11.
  rewrite mxE (bigD1 j) //= big1 ?addr0; last first.
  { move=> k Hk. rewrite [delta_mx j 0 k 0]mxE (negbTE Hk) /=. by rewrite mulr0. }
  rewrite [delta_mx j 0 j 0]mxE !eqxx mulr1 -rowE mxE. by [].
Qed.
Lemma iw_mean n nu (psi : 'M[R]_n) : posdef psi -> (INR n + 1 < nu)%Re -> is_cone_mean (iw_pdf nu psi) ((/ (nu - INR n - 1))%Re *: psi).
Proof.
  move=> PP Hn i j. have H := iw_trace (delta_mx j i) 0%Re PP Hn. rewrite tr_delta in H.
  have E : (0 + psi i j / (nu - INR n - 1) = ((/ (nu - INR n - 1))%Re *: psi) i j)%Re.
  { rewrite mxE. move: (psi i j) => pp. rewrite RmultE. rewrite /Rdiv. ring. }
  rewrite E in H. apply: is_cone_int_ext H => S _. rewrite tr_delta. move: (S i j) => ss. ring.
Qed.
Lemma InverseWishart_moments n d nu (psi : 'M[R]_n) : holds_iw d nu psi -> posdef psi -> (INR n - 1 < nu)%Re ->
  is_cone_density (iw_pdf_of (n := n) d) /\
  ((INR n + 1 < nu)%Re -> is_cone_mean (iw_pdf_of (n := n) d) ((/ (nu - INR n - 1))%Re *: psi)).
Proof.
  move=> H PP Hn. rewrite (iw_of H). split; [split|].
  - move=> S _. exact: iw_pdf_nonneg.
  - exact: iw_normalised.
  - move=> Hn1. exact: iw_mean.
Qed.

(** linear combinations under the inner integral *)
Lemma nig_pos n (mu : 'cV[R]_n) Di a b t v : posdef Di -> (0 < a)%Re -> (0 < b)%Re -> (0 < v)%Re -> (0 <= mv_nig_pdf mu Di a b t v)%Re.
Proof.
  move=> PD Ha Hb Hv. rewrite /mv_nig_pdf. apply: Rmult_le_pos.
  - apply: Rlt_le. apply: mvn_pdf_pos. exact: posdef_scale.
  - exact: (proj1 (Proofs.Normalised.invgamma_density a b Ha Hb) v).
Qed.
Lemma mul_turn (a b c : R) : (c * (a * b) = a * (b * c))%Re.
Proof. ring. Qed.
Lemma nig_means n (mu : 'cV[R]_n) Di a b : posdef Di -> (1 < a)%Re -> (0 < b)%Re ->
  is_vec_pos_mean (fun p => mv_nig_pdf mu Di a b p.1 p.2) (mu, (b / (a - 1))%Re).
Proof.
  move=> PD Ha Hb. have Ha0 : (0 < a)%Re by lra. have Ha1 : (0 < a - 1)%Re by lra. split; cbn [fst snd].
  - move=> i. exists (fun v => (mu i 0%R * pdf (S_invgamma_scale a b) v)%Re). split.
    + move=> v Hv. have H := is_vec_int_scal (pdf (S_invgamma_scale a b) v) (mvn_mean mu (posdef_scale Hv PD) i).
      rewrite Rmult_comm in H. apply: is_vec_int_ext H => t. rewrite /mv_nig_pdf. exact: mul_turn.
    + pose proof (is_RInt_gen_mult_l _ _ _ (mu i 0%R) _ (invgamma_normalised a b Ha0 Hb)) as H. rewrite Rmult_1_r in H. exact: H.
  - exists (fun v => (v * pdf (S_invgamma_scale a b) v)%Re). split.
    + move=> v Hv. have H := is_vec_int_scal v (nig_inner mu a b PD Hv). apply: is_vec_int_ext H => t. by [].
    + pose proof (is_RInt_gen_mult_l _ _ _ (b / (a - 1))%Re _ (invgamma_normalised (a - 1) b Ha1 Hb)) as H. rewrite Rmult_1_r in H.
      move: H. apply (is_RInt_gen_ext_on _ _ _ ends_pos) => v _. by rewrite invgamma_shift.
Qed.
Lemma NormalInverseGamma_moments n l d (mu : 'cV[R]_n) Di a b : holds_nig l d mu Di a b -> posdef Di -> (0 < a)%Re -> (0 < b)%Re ->
  is_vec_pos_density (nig_pdf_of l (n := n) d) /\
  ((1 < a)%Re -> is_vec_pos_mean (nig_pdf_of l (n := n) d) (mu, (b / (a - 1))%Re)).
Proof.
  move=> H PD Ha Hb. rewrite (nig_of H). split; [split|].
  - move=> [t v] Hv. exact: nig_pos.
  - exists (pdf (S_invgamma_scale a b)). split; last exact: invgamma_normalised. move=> v Hv. exact: nig_inner.
  - move=> Ha1. exact: nig_means.
Qed.
Lemma niw_means n (mu : 'cV[R]_n) k nu psi : posdef psi -> (INR n + 1 < nu)%Re -> (0 < k)%Re ->
  is_vec_cone_mean (fun p => niw_pdf mu k nu psi p.1 p.2) (mu, (/ (nu - INR n - 1))%Re *: psi).
Proof.
  move=> PP Hn Hk. have Hn0 : (INR n - 1 < nu)%Re by lra. have Hi := Rinv_0_lt_compat _ Hk. split; cbn [fst snd].
  - move=> i. exists (fun S : 'M[R]_n => (mu i 0%R * iw_pdf nu psi S)%Re). split.
    + move=> S PS. have H := is_vec_int_scal (iw_pdf nu psi S) (mvn_mean mu (posdef_scale Hi PS) i).
      rewrite Rmult_comm in H. apply: is_vec_int_ext H => t. rewrite /niw_pdf. exact: mul_turn.
    + have H := is_cone_int_scal (mu i 0%R) (iw_normalised PP Hn0). rewrite Rmult_1_r in H. exact: H.
  - move=> i j. exists (fun S : 'M[R]_n => (S i j * iw_pdf nu psi S)%Re). split; last exact: (iw_mean PP Hn).
    move=> S PS. have H := is_vec_int_scal (S i j) (niw_inner mu nu psi PS Hk). apply: is_vec_int_ext H => t. by [].
Qed.
Lemma NormalInverseWishart_moments n d (mu : 'cV[R]_n) k nu psi : holds_niw d mu k nu psi -> posdef psi -> (INR n - 1 < nu)%Re -> (0 < k)%Re ->
  is_vec_cone_density (niw_pdf_of (n := n) d) /\
  ((INR n + 1 < nu)%Re -> is_vec_cone_mean (niw_pdf_of (n := n) d) (mu, (/ (nu - INR n - 1))%Re *: psi)).
Proof.
  move=> H PP Hn Hk. rewrite (niw_of H). split; [split|].
  - move=> [t S] PS. cbn [fst snd]. rewrite /niw_pdf. apply: Rmult_le_pos; last exact: iw_pdf_nonneg.
    apply: Rlt_le. apply: mvn_pdf_pos. apply: posdef_scale PS. exact: Rinv_0_lt_compat.
  - exists (iw_pdf nu psi). split; last exact: iw_normalised. move=> S PS. exact: niw_inner.
  - move=> Hn1. exact: niw_means.
Qed.

(** ** the predictives *)
Lemma known_covariance_predictive_moments n l d cov (mu0 : 'cV[R]_n) cov0 (covm : 'M[R]_n) :
  holds_mvn l d mu0 cov0 -> holds_mx cov covm -> posdef cov0 -> posdef covm ->
  exists pred, multivariate_normal_known_covariance_predictive d cov = Ok pred /\
    let f := mv_pdf l (n := n) (MultivariateNormal_dist pred) in
    is_vec_density f /\ is_vec_mean f mu0 /\ is_vec_cov f (cov0 + covm).
Proof.
  move=> /holds_mvn_elim [Hm Hc0] Hc PD0 PD. rewrite /multivariate_normal_known_covariance_predictive.
  case: (cm_add (c_ok Hc0) (c_ok Hc)) => cp [-> Hcp]. cbn [bind]. eexists. split; first reflexivity.
  apply: MultivariateNormal_moments; last exact: posdef_addp. by eexists _, _.
Qed.
Lemma known_precision_predictive_moments n l d prec inv (mu0 : 'cV[R]_n) cov0 (P : 'M[R]_n) :
  inverts inv -> holds_mvn l d mu0 cov0 -> holds_mx prec P -> posdef cov0 -> posdef P ->
  exists pred, multivariate_normal_known_precision_predictive d prec inv = Ok pred /\
    let f := mv_pdf l (n := n) (MultivariateNormal_dist pred) in
    is_vec_density f /\ is_vec_mean f mu0 /\ is_vec_cov f (cov0 + invmx P).
Proof.
  move=> Hinv /holds_mvn_elim [Hm Hc0] Hc PD0 PD. rewrite /multivariate_normal_known_precision_predictive.
  case: (Hinv _ _ _ Hc PD) => c [-> Hci]. cbn [bind].
  case: (cm_add (c_ok Hc0) (c_ok Hci)) => cp [-> Hcp]. cbn [bind]. eexists. split; first reflexivity.
  apply: MultivariateNormal_moments; first by eexists _, _. apply: posdef_addp => //. exact: posdef_inv.
Qed.
Lemma linear_regression_predictive_moments N n l eye X d (Xm : 'M[R]_(N, n)) mu Di a b :
  makes_eye eye -> holds_mx X Xm -> holds_nig l d mu Di a b -> posdef Di -> (0 < a)%Re -> (0 < b)%Re ->
  exists pred, linear_regression_predictive d X eye = Ok pred /\
    let f := mv_pdf l (n := N) (MultivariateStudentT_dist pred) in
    is_vec_density f /\ ((1 < 2 * a)%Re -> is_vec_mean f (Xm *m mu)) /\
    ((1 < a)%Re -> is_vec_cov f ((b / (a - 1))%Re *: (1%:M + Xm *m Di *m Xm^T))).
Proof.
  move=> He HX Hd PD Ha Hb.
  have [pred [m [S [nu [E [H [PS [Hnu [Em [En [ES _]]]]]]]]]]] := linear_regression_predictive_marginal He HX Hd PD Ha Hb.
  exists pred. split; first by []. have [M0 [M1 M2]] := MultivariateStudentT_moments H PS Hnu.
  split; first exact: M0. split.
  - move=> H1. rewrite -Em. apply: M1. by rewrite En.
  - move=> H1. have H2 : (2 < nu)%Re by rewrite En; lra. have := M2 H2. rewrite ES scalerA En.
    have E1 : ((2 * a / (2 * a - 2)) * (b / a) = b / (a - 1))%Re by field; lra. rewrite -E1. by [].
Qed.
Lemma mvn_predictive_moments n d (mu : 'cV[R]_n) k nu psi : holds_niw d mu k nu psi ->
  posdef psi -> (INR n - 1 < nu)%Re -> (0 < k)%Re ->
  exists pred, multivariate_normal_predictive d = Ok pred /\
    let f := mv_pdf Flat (n := n) (MultivariateStudentT_dist pred) in
    is_vec_density f /\ ((INR n < nu)%Re -> is_vec_mean f mu) /\
    ((INR n + 1 < nu)%Re -> is_vec_cov f (((1 + / k) / (nu - INR n - 1))%Re *: psi)).
Proof.
  move=> Hd PP Hnu Hk. case: (mvn_predictive_computes Hd) => pred [E H]. exists pred. split; first by [].
  have Hdf : (0 < df_niw n nu)%Re by rewrite /df_niw; lra.
  have PS : posdef (scale_niw k nu psi).
  { apply: posdef_scale PP. apply: Rdiv_lt_0_compat; first lra. exact: Rmult_lt_0_compat. }
  have [M0 [M1 M2]] := MultivariateStudentT_moments H PS Hdf. split; first exact: M0. split.
  - move=> H1. apply: M1. rewrite /df_niw. lra.
  - move=> H1. have H2 : (2 < df_niw n nu)%Re by rewrite /df_niw; lra. have := M2 H2. rewrite /scale_niw scalerA.
    have E1 : ((df_niw n nu / (df_niw n nu - 2)) * ((k + 1) / (k * df_niw n nu)) = (1 + / k) / (nu - INR n - 1))%Re.
    { rewrite /df_niw. field. repeat split; lra. } rewrite -E1. by [].
Qed.

(** ** means of posteriors, averaged over the predictive *)
Lemma row_dot n m (A : 'M[R]_(m, n)) (v : 'cV[R]_n) i : (A *m v) i 0 = dot (row i A)^T v.
Proof. by rewrite /dot trmxK -row_mul [RHS]mxE. Qed.

Section Linear.
Variables (n m : nat) (f : 'cV[R]_n -> R) (mu : 'cV[R]_n) (c : 'cV[R]_m) (A : 'M[R]_(m, n)).
Hypothesis M1 : forall w c, is_vec_int (fun x => ((c + dot w (x - mu)) * f x)%Re) c.
Lemma linear_average i : is_vec_int (fun x => (f x * (c + A *m (x - mu))%R i 0%R)%Re) (c i 0).
Proof.
  apply: is_vec_int_ext (M1 (row i A)^T (c i 0)) => x. rewrite -row_dot Rmult_comm. congr (_ * _)%Re. by rewrite [RHS]mxE.
Qed.
End Linear.

Lemma known_covariance_means n (l : layout) np_inv inv one (arr : 'cV[R]_n -> nd R) cov (covm : 'M[R]_n) :
  inverts np_inv -> inverts inv -> holds_sc one 1%Re -> (forall x, holds_vec l (arr x) x) -> holds_mx cov covm -> posdef covm ->
  means_calibrated (@vec_coords n) (@is_vec_int n) (fun d => is_vec_mean (mv_pdf l (n := n) (MultivariateNormal_dist d)))
    (fun d x => multivariate_normal_known_covariance np_inv one (arr x) cov d inv)
    (fun d x => let* p := multivariate_normal_known_covariance_predictive d cov in Ok (mv_pdf l (MultivariateNormal_dist p) x))
    (mvn_ok n l).
Proof.
  move=> Hn Hi H1 Ha Hc Pc d [mu [c0 [Hd Pd]]].
  exists mu. split; first by case: (MultivariateNormal_moments Hd Pd) => _ [].
  move=> co [i ->].
  have Q0 := posdef_inv Pd. have Q := posdef_inv Pc.
  have [cp [Ecp Hcp]] := cm_add (c_ok (proj2 (holds_mvn_elim Hd))) (c_ok Hc).
  have HP : holds_mvn l (mkMultivariateNormal (MultivariateNormal_mu d) cp) mu (c0 + covm).
  { exists (MultivariateNormal_mu d), cp. split; first by []. split; [exact: proj1 (holds_mvn_elim Hd) | exact: Hcp]. }
  have PP : posdef (c0 + covm) by exact: posdef_addp.
  exists (fun x => (mvn_pdf mu (c0 + covm) x * (mu + invmx (invmx c0 + invmx covm) *m invmx covm *m (x - mu))%R i 0%R)%Re). split.
  - move=> x. have [post [E H]] := known_covariance_computes Hn Hi (sample_one H1 (Ha x)) Hc Hd Pd Pc.
    exists (mvn_pdf mu (c0 + covm) x), post, (m_post mu (invmx c0) (invmx covm) [:: x]). split; [|split; [exact: E | split]].
    + rewrite /multivariate_normal_known_covariance_predictive Ecp. cbn [bind]. by rewrite (mv_pdf_mvn HP).
    + have PD' := posdef_inv (P_post_posdef [:: x] Q0 Q). by case: (MultivariateNormal_moments H PD') => _ [].
    + by rewrite (m_post_one _ _ Pd Pc) mulmxA.
  - apply: linear_average => w c. exact: mvn_linear.
Qed.
Lemma known_precision_means n (l : layout) np_inv inv one (arr : 'cV[R]_n -> nd R) prec (P : 'M[R]_n) :
  inverts np_inv -> inverts inv -> holds_sc one 1%Re -> (forall x, holds_vec l (arr x) x) -> holds_mx prec P -> posdef P ->
  means_calibrated (@vec_coords n) (@is_vec_int n) (fun d => is_vec_mean (mv_pdf l (n := n) (MultivariateNormal_dist d)))
    (fun d x => multivariate_normal_known_precision np_inv one (arr x) prec d inv)
    (fun d x => let* p := multivariate_normal_known_precision_predictive d prec inv in Ok (mv_pdf l (MultivariateNormal_dist p) x))
    (mvn_ok n l).
Proof.
  move=> Hn Hi H1 Ha Hc Pc d [mu [c0 [Hd Pd]]].
  exists mu. split; first by case: (MultivariateNormal_moments Hd Pd) => _ [].
  move=> co [i ->].
  have Q0 := posdef_inv Pd. have Q := posdef_inv Pc.
  have [ci [Eci Hci]] := Hi _ _ _ Hc Pc.
  have [cp [Ecp Hcp]] := cm_add (c_ok (proj2 (holds_mvn_elim Hd))) (c_ok Hci).
  have HP : holds_mvn l (mkMultivariateNormal (MultivariateNormal_mu d) cp) mu (c0 + invmx P).
  { exists (MultivariateNormal_mu d), cp. split; first by []. split; [exact: proj1 (holds_mvn_elim Hd) | exact: Hcp]. }
  have PP : posdef (c0 + invmx P) by exact: posdef_addp.
  exists (fun x => (mvn_pdf mu (c0 + invmx P) x * (mu + invmx (invmx c0 + P) *m P *m (x - mu))%R i 0%R)%Re). split.
  - move=> x. have [post [E H]] := known_precision_computes Hn Hi (sample_one H1 (Ha x)) Hc Hd Pd Pc.
    exists (mvn_pdf mu (c0 + invmx P) x), post, (m_post mu (invmx c0) P [:: x]). split; [|split; [exact: E | split]].
    + rewrite /multivariate_normal_known_precision_predictive Eci Ecp. cbn [bind]. by rewrite (mv_pdf_mvn HP).
    + have PD' := posdef_inv (P_post_posdef [:: x] Q0 Pc). by case: (MultivariateNormal_moments H PD') => _ [].
    + have := m_post_one mu x Pd Q. rewrite invmxK => ->. by rewrite mulmxA.
  - apply: linear_average => w c. exact: mvn_linear.
Qed.

(** all responses to the rows of X at once *)
Lemma linear_regression_means N n (l : layout) inv eye X (Xm : 'M[R]_(N, n)) (arrY : 'cV[R]_N -> nd R) :
  inverts inv -> makes_eye eye -> holds_mx X Xm -> (forall y, holds_vec l (arrY y) y) ->
  means_calibrated (@vec_pos_coords n) (@is_vec_int N) (fun d => is_vec_pos_mean (nig_pdf_of l (n := n) d))
    (fun d y => linear_regression X (arrY y) d inv)
    (fun d y => let* p := linear_regression_predictive d X eye in Ok (mv_pdf l (MultivariateStudentT_dist p) y))
    (@nig_mean_ok n l).
Proof.
  move=> Hi He HX HY d [mu [Di [a [b [Hd [PD [Ha Hb]]]]]]]. have Ha0 : (0 < a)%Re by lra. have HI := pos_INR N.
  have PDD := posdef_inv PD.
  exists (mu, (b / (a - 1))%Re). split; first exact: (proj2 (NormalInverseGamma_moments Hd PD Ha0 Hb) Ha).
  have [pred [m [S [nu [E2 [H2 [PS [Hnu [Em [En [ES _]]]]]]]]]]] := linear_regression_predictive_marginal He HX Hd PD Ha0 Hb.
  have Hn2 : (2 < nu)%Re by rewrite En; lra. have Hn1 : (1 < nu)%Re by lra.
  set mean := fun y => (mu_post Xm y mu (invmx Di), (b_post Xm y mu Di b / (a_post N a - 1))%Re).
  have Upd co : exists w : 'cV[R]_N -> R,
    (forall y, exists p d' m', (let* p := linear_regression_predictive d X eye in Ok (mv_pdf l (MultivariateStudentT_dist p) y)) = Ok p /\
      linear_regression X (arrY y) d inv = Ok d' /\ is_vec_pos_mean (nig_pdf_of l (n := n) d') m' /\ w y = (p * co m')%Re) /\
    w = fun y => (mvt_pdf m S nu y * co (mean y))%Re.
  { exists (fun y => (mvt_pdf m S nu y * co (mean y))%Re). split; last by []. move=> y.
    have [post [E H]] := linear_regression_computes Hi HX (HY y) Hd PD.
    exists (mvt_pdf m S nu y), post, (mean y). split; [|split; [exact: E | split; last by []]].
    - rewrite E2. cbn [bind]. by rewrite (mv_pdf_mvt H2).
    - apply: (proj2 (NormalInverseGamma_moments H _ _ _)).
      + apply: posdef_inv. exact: D_post_posdef.
      + rewrite /a_post. lra.
      + exact: b_post_pos.
      + rewrite /a_post. lra. }
  move=> co [[i ->]|->].
  - have [w [Hw Ew]] := Upd (fun m => m.1 i 0). exists w. split; first exact: Hw. rewrite Ew. cbn [fst snd].
    have H := @linear_average N n (mvt_pdf m S nu) m mu (invmx (D_post Xm (invmx Di)) *m Xm^T) (fun w c => mvt_mean m PS Hnu w c Hn1) i.
    apply: is_vec_int_ext H => y. rewrite /mean /= (mu_post_shift _ _ _ PDD) Em mulmxA. by [].
  - have [w [Hw Ew]] := Upd (fun m => m.2). exists w. split; first exact: Hw. rewrite Ew. cbn [fst snd].
    set k := (/ (2 * (a_post N a - 1)))%Re.
    have Hk : (0 < a_post N a - 1)%Re by rewrite /a_post; lra.
    have H := mvt_quad m (k *: invmx (W Xm (invmx Di))) 0 (b / (a_post N a - 1))%Re PS Hn2.
    have E : (b / (a_post N a - 1) + \tr (k *: invmx (W Xm (invmx Di)) *m ((nu / (nu - 2))%Re *: S))%R = b / (a - 1))%Re.
    { rewrite ES scalerA -scalemxAr -scalemxAl !linearZ /=.
      have -> : 1%:M + Xm *m Di *m Xm^T = W Xm (invmx Di) by rewrite /W invmxK.
      rewrite mulVmx ?mxtrace1 ?RnatE; last by apply: posdef_unit; exact: W_posdef.
      rewrite En /k /a_post. toR. field. lra. }
    rewrite E in H. apply: is_vec_int_ext H => y. rewrite /mean /= /b_post (excess_eq _ _ _ PDD) -Em quadZA.
    have -> : dot 0 (y - m) = 0%Re by rewrite /dot trmx0 mul0mx mxE.
    move: (quad _ _) (mvt_pdf _ _ _ _) => q p. rewrite /k. field. lra.
Qed.

Lemma mvn_means n outer (arr : 'cV[R]_n -> nd R) :
  makes_outer outer -> (forall x, holds_mx (arr x) x^T) ->
  means_calibrated (@vec_cone_coords n) (@is_vec_int n) (fun d => is_vec_cone_mean (niw_pdf_of (n := n) d))
    (fun d x => multivariate_normal (arr x) d outer)
    (fun d x => let* p := multivariate_normal_predictive d in Ok (mv_pdf Flat (MultivariateStudentT_dist p) x))
    (@niw_mean_ok n).
Proof.
  move=> Ho HX d [mu [k [nu [psi [Hd [PP [Hnu Hk]]]]]]]. have Hnu0 : (INR n - 1 < nu)%Re by lra. have HI := pos_INR n.
  exists (mu, (/ (nu - INR n - 1))%Re *: psi). split; first exact: (proj2 (NormalInverseWishart_moments Hd PP Hnu0 Hk) Hnu).
  case: (mvn_predictive_computes Hd) => pred [E2 H2].
  have Hdf : (0 < df_niw n nu)%Re by rewrite /df_niw; lra.
  have Hdf1 : (1 < df_niw n nu)%Re by rewrite /df_niw; lra.
  have Hdf2 : (2 < df_niw n nu)%Re by rewrite /df_niw; lra.
  have PS : posdef (scale_niw k nu psi).
  { apply: posdef_scale PP. apply: Rdiv_lt_0_compat; first lra. exact: Rmult_lt_0_compat. }
  have Hk1 : (0 < k + 1)%Re by lra.
  set f := mvt_pdf mu (scale_niw k nu psi) (df_niw n nu).
  set mean := fun x : 'cV[R]_n => (mu + (/ (k + 1))%Re%:M *m (x - mu),
    (/ (nu - INR n))%Re *: (psi + (k / (k + 1))%Re *: ((x - mu) *m (x - mu)^T))).
  have Upd co : exists w : 'cV[R]_n -> R,
    (forall x, exists p d' m', (let* p := multivariate_normal_predictive d in Ok (mv_pdf Flat (MultivariateStudentT_dist p) x)) = Ok p /\
      multivariate_normal (arr x) d outer = Ok d' /\ is_vec_cone_mean (niw_pdf_of (n := n) d') m' /\ w x = (p * co m')%Re) /\
    w = fun x => (f x * co (mean x))%Re.
  { exists (fun x => (f x * co (mean x))%Re). split; last by []. move=> x.
    have Hr : holds_mx (arr x) (rows [:: x]).
    { have -> : rows [:: x] = x^T; last exact: HX. apply/matrixP => i j. rewrite !mxE. case: i => [[|i] Hi] //. cbn [List.nth nat_of_ord]. congr (x j _). exact: val_inj. }
    have Hne : [:: x] <> [::] by [].
    have [post [E H]] := mvn_computes Ho Hr Hd.
    exists (f x), post, (mean x). split; [|split; [exact: E | split; last by []]].
    - rewrite E2. cbn [bind]. by rewrite (mv_pdf_mvt H2).
    - have PP' := psi_niw_posdef mu PP Hk Hne.
      have Elen : INR (length [:: x]) = 1%Re by [].
      have Hnu' : (INR n - 1 < nu + INR (length [:: x]))%Re by rewrite Elen; lra.
      have Hnu2 : (INR n + 1 < nu + INR (length [:: x]))%Re by rewrite Elen; lra.
      have Hk' : (0 < k_niw k [:: x])%Re by rewrite /k_niw /=; lra.
      have := proj2 (NormalInverseWishart_moments H PP' Hnu' Hk') Hnu2. rewrite /mean psi_niw_one.
      have -> : mu_niw mu k [:: x] = mu + (/ (k + 1))%Re%:M *m (x - mu).
      { rewrite /mu_niw /k_niw xbar_one mul_scalar_mx -[INR (seq.size [:: x])]/1%Re. apply/matrixP => i j. rewrite !mxE.
        move: (mu i j) (x i j) => m0 x0. toR. field. lra. }
      have -> : (nu + INR (length [:: x]) - INR n - 1 = nu - INR n)%Re by rewrite Elen; ring. by []. }
  move=> co [[i ->]|[i [j ->]]].
  - have [w [Hw Ew]] := Upd (fun m => m.1 i 0). exists w. split; first exact: Hw. rewrite Ew. cbn [fst snd].
    rewrite /mean /=. apply: linear_average => w' c. exact: mvt_mean.
  - have [w [Hw Ew]] := Upd (fun m => m.2 i j). exists w. split; first exact: Hw. rewrite Ew. cbn [fst snd].
    have C := @cov_entries n f mu _ (@mvt_sym n _ (df_niw n nu / (df_niw n nu - 2))%Re PS) (fun w => mvt_sq mu w PS Hdf2) i j.
    have H := is_vec_int_plus (is_vec_int_scal (/ (nu - INR n) * psi i j)%Re (mvt_normalised mu PS Hdf))
      (is_vec_int_scal (/ (nu - INR n) * (k / (k + 1)))%Re C).
    have E : (/ (nu - INR n) * psi i j * 1 + / (nu - INR n) * (k / (k + 1)) * ((df_niw n nu / (df_niw n nu - 2))%Re *: scale_niw k nu psi)%R i j =
      ((/ (nu - INR n - 1))%Re *: psi)%R i j)%Re.
    { rewrite /scale_niw !mxE. move: (psi i j) => p0. rewrite /df_niw. toR. field. repeat split; lra. }
    rewrite E in H. apply: is_vec_int_ext H => x. rewrite /mean /= !mxE big_ord1 !mxE -/f.
    move: (f x) (psi i j) (x i 0) (x j 0) (mu i 0) (mu j 0) => f0 p0 x1 x2 m1 m2. toR. ring.
Qed.
