(** The chain rule for the array models. *)

From Coq Require Import Reals ZArith Lra List.
From Coquelicot Require Import Coquelicot.
From mathcomp Require Import all_ssreflect all_algebra.
From Verif Require Import Model.Num Model.Py Model.Dists Model.ScipyDist Model.Models Model.NdArray Model.MatrixModel.
From Verif Require Import Spec.Special Spec.Densities Spec.Bayes Spec.Prequential.
From Verif Require Import Analysis.RField Spec.Matrices Spec.Wishart Analysis.Posdef Spec.Arrays Spec.PrequentialArrays Proofs.Arrays
  Analysis.Improper Analysis.GammaBeta Analysis.GammaFacts Analysis.Regression Analysis.MvnBayes Analysis.MultiGauss Analysis.InvWishart Analysis.WishartBayes
  Proofs.Joint Proofs.Pdfs Proofs.LinReg Proofs.MvNormal Proofs.Wishart Proofs.Prequential Spec.Calibration Proofs.Calibration.
Delimit Scope R_scope with Re.

Set Implicit Arguments.
Unset Strict Implicit.
Unset Printing Implicit Defensive.
Import GRing.Theory.
Local Open Scope ring_scope.

(** ** reading *)
Lemma mx_of_holds m n a (M : 'M[R]_(m, n)) : holds_mx a M -> mx_of m n a = M.
Proof. move=> [_ H]. apply/matrixP => i j. by rewrite mxE H. Qed.
Lemma vec_of_holds n l a (v : 'cV[R]_n) : holds_vec l a v -> vec_of l n a = v.
Proof.
  case: l => [[_ H]|[_ H]]; apply/matrixP => i j; rewrite mxE (ord1 j); first exact: H.
  by rewrite -(H i 0).
Qed.
Lemma num_of_holds a x : holds_num a x -> num_of a = x.
Proof. by rewrite /num_of; case=> [[-> ->]|[-> ->]]. Qed.
Lemma num_of_sc a x : holds_sc a x -> num_of a = x.
Proof. move=> H. apply: num_of_holds. by left. Qed.

Lemma mv_pdf_mvn n l d (mu : 'cV[R]_n) cov : holds_mvn l d mu cov -> mv_pdf l (n := n) (MultivariateNormal_dist d) = mvn_pdf mu cov.
Proof. move=> [m [c [-> [Hm Hc]]]]. rewrite /mv_pdf. by rewrite (vec_of_holds Hm) (mx_of_holds Hc). Qed.
Lemma mv_pdf_mvt n l d (mu : 'cV[R]_n) S nu : holds_mvt l d mu S nu -> mv_pdf l (n := n) (MultivariateStudentT_dist d) = mvt_pdf mu S nu.
Proof. move=> [m [c [df [-> [Hm [Hc Hd]]]]]]. rewrite /mv_pdf. by rewrite (vec_of_holds Hm) (mx_of_holds Hc) (num_of_holds Hd). Qed.

(** ** known covariance *)
Lemma lik_one n (cov : 'M[R]_n) x t : mvn_lik cov [:: x] t = mvn_pdf t cov x.
Proof. by rewrite /mvn_lik big_seq1. Qed.

Lemma sample_one n l (x : 'cV[R]_n) a b : holds_sc a 1%Re -> holds_vec l b x -> holds_sample l [:: x] (a, b).
Proof.
  move=> Ha Hb. split; first by []. exists x. split; first by []. rewrite big_seq1 /=. toR. exact: scale1r.
Qed.

Lemma known_covariance_chain n (l : layout) np_inv inv one (arr : 'cV[R]_n -> nd R) cov (covm : 'M[R]_n) :
  inverts np_inv -> inverts inv -> holds_sc one 1%Re -> (forall x, holds_vec l (arr x) x) -> holds_mx cov covm -> posdef covm ->
  prequential (@is_vec_int n) (fun d => mv_pdf l (MultivariateNormal_dist d)) (fun t x => mvn_pdf t covm x)
    (fun d x => multivariate_normal_known_covariance np_inv one (arr x) cov d inv)
    (fun d x => let* p := multivariate_normal_known_covariance_predictive d cov in Ok (mv_pdf l (MultivariateNormal_dist p) x))
    anywhere (mvn_ok n l) (fun _ => True).
Proof.
  move=> Hn Hi H1 Ha Hc Pc. apply: prequential_intro.
  - move=> f u v. exact: is_vec_int_unique.
  - move=> f c u. exact: is_vec_int_scal.
  - move=> f g u E. apply: is_vec_int_ext => t. exact: E.
  - move=> d [mu [c [Hd Pd]]]. rewrite (mv_pdf_mvn Hd). exact: mvn_normalised.
  - move=> d x [mu [c [Hd Pd]]] _.
    have [post [mu' [c' [E [Hp [Pp [ev [Hev [Iev Bp]]]]]]]]] :=
      known_covariance_posterior Hn Hi (sample_one H1 (Ha x)) Hc Hd Pd Pc.
    have [pred [m2 [c2 [E2 [Hp2 [_ M2]]]]]] := known_covariance_predictive Hd Hc Pd Pc.
    exists post, (mvn_pdf m2 c2 x), ev. split; first exact: E. split; first by exists mu', c'.
    rewrite E2. cbn [bind]. rewrite (mv_pdf_mvn Hp2) (mv_pdf_mvn Hp) (mv_pdf_mvn Hd). split; first by []. split; first by [].
    split; first by apply: is_vec_int_ext Iev => t; rewrite lik_one.
    split; last exact: M2. move=> t _. by rewrite Bp lik_one.
Qed.

Lemma known_precision_chain n (l : layout) np_inv inv one (arr : 'cV[R]_n -> nd R) prec (P : 'M[R]_n) :
  inverts np_inv -> inverts inv -> holds_sc one 1%Re -> (forall x, holds_vec l (arr x) x) -> holds_mx prec P -> posdef P ->
  prequential (@is_vec_int n) (fun d => mv_pdf l (MultivariateNormal_dist d)) (fun t x => mvn_pdf t (invmx P) x)
    (fun d x => multivariate_normal_known_precision np_inv one (arr x) prec d inv)
    (fun d x => let* p := multivariate_normal_known_precision_predictive d prec inv in Ok (mv_pdf l (MultivariateNormal_dist p) x))
    anywhere (mvn_ok n l) (fun _ => True).
Proof.
  move=> Hn Hi H1 Ha Hc Pc. apply: prequential_intro.
  - move=> f u v. exact: is_vec_int_unique.
  - move=> f c u. exact: is_vec_int_scal.
  - move=> f g u E. apply: is_vec_int_ext => t. exact: E.
  - move=> d [mu [c [Hd Pd]]]. rewrite (mv_pdf_mvn Hd). exact: mvn_normalised.
  - move=> d x [mu [c [Hd Pd]]] _.
    have [post [mu' [c' [E [Hp [Pp [ev [Hev [Iev Bp]]]]]]]]] :=
      known_precision_posterior Hn Hi (sample_one H1 (Ha x)) Hc Hd Pd Pc.
    have [pred [m2 [c2 [E2 [Hp2 [_ M2]]]]]] := known_precision_predictive Hi Hd Hc Pd Pc.
    exists post, (mvn_pdf m2 c2 x), ev. split; first exact: E. split; first by exists mu', c'.
    rewrite E2. cbn [bind]. rewrite (mv_pdf_mvn Hp2) (mv_pdf_mvn Hp) (mv_pdf_mvn Hd). split; first by []. split; first by [].
    split; first by apply: is_vec_int_ext Iev => t; rewrite lik_one.
    split; last exact: M2. move=> t _. by rewrite Bp lik_one.
Qed.

(** ** a vector and a positive number *)
Lemma over_vec_pos_unique n (f : 'cV[R]_n * R -> R) u v : over_vec_pos f u -> over_vec_pos f v -> u = v.
Proof.
  move=> [g [Hg Ig]] [h [Hh Ih]]. apply: (is_RInt_gen_unique_on _ _ _ ends_pos _ _ _ Ig).
  apply: (is_RInt_gen_ext_on _ _ _ ends_pos h _ _ _ Ih) => x Hx. exact: (is_vec_int_unique (Hh x Hx) (Hg x Hx)).
Qed.
Lemma over_vec_pos_scal n (f : 'cV[R]_n * R -> R) c u : over_vec_pos f u -> over_vec_pos (fun t => (c * f t)%Re) (c * u)%Re.
Proof.
  move=> [g [Hg Ig]]. exists (fun v => (c * g v)%Re). split.
  - move=> v Hv. apply: is_vec_int_scal. exact: Hg.
  - exact: is_RInt_gen_mult_l.
Qed.
Lemma over_vec_pos_ext n (f g : 'cV[R]_n * R -> R) u : (forall t, (0 < t.2)%Re -> f t = g t) -> over_vec_pos f u -> over_vec_pos g u.
Proof.
  move=> E [h [Hh Ih]]. exists h. split; last by []. move=> v Hv. apply: is_vec_int_ext (Hh v Hv) => t. exact: E.
Qed.

Lemma nig_of n l d (mu : 'cV[R]_n) Di a b : holds_nig l d mu Di a b -> nig_pdf_of l (n := n) d = fun p => mv_nig_pdf mu Di a b p.1 p.2.
Proof.
  move=> [Hm [Ha [Hb [_ [m [Em Hm']]]]]]. rewrite /nig_pdf_of Em.
  by rewrite (vec_of_holds Hm) (mx_of_holds Hm') (num_of_holds Ha) (num_of_holds Hb).
Qed.

Lemma regression_lik_one n (x : 'cV[R]_n) (y : R) t v : regression_lik x^T (y%:M : 'cV[R]_1) t v = response_lik (t, v) (x, y).
Proof. by rewrite /regression_lik /response_lik big_ord1 !mxE eqxx mulr1n. Qed.

Lemma linear_regression_chain n (l : layout) inv eye (arrX : 'cV[R]_n -> nd R) (arrY : R -> nd R) :
  inverts inv -> makes_eye eye -> (forall x, holds_mx (arrX x) x^T) -> (forall y, holds_vec l (arrY y) (y%:M : 'cV[R]_1)) ->
  prequential (@over_vec_pos n) (nig_pdf_of l (n := n)) (@response_lik n)
    (fun d o => linear_regression (arrX o.1) (arrY o.2) d inv)
    (fun d o => let* p := linear_regression_predictive d (arrX o.1) eye in
                Ok (mv_pdf l (MultivariateStudentT_dist p) (o.2%:M : 'cV[R]_1)))
    (fun t => Rlt 0%Re t.2) (@nig_ok n l) (fun _ => True).
Proof.
  move=> Hi He HX HY. apply: prequential_intro.
  - exact: over_vec_pos_unique.
  - exact: over_vec_pos_scal.
  - exact: over_vec_pos_ext.
  - move=> d [mu [Di [a [b [Hd [PD [Ha Hb]]]]]]]. rewrite (nig_of Hd).
    exists (pdf (S_invgamma_scale a b)). split; last exact: invgamma_normalised.
    move=> v Hv. exact: nig_inner.
  - move=> d [x y] [mu [Di [a [b [Hd [PD [Ha Hb]]]]]]] _. cbn [fst snd].
    have [post [mu' [Di' [a' [b' [E [Hp [PD' [Ha' [Hb' [h [ev [Hev [Hh [Ih Bp]]]]]]]]]]]]]]] :=
      linear_regression_posterior Hi (HX x) (HY y) Hd PD Ha Hb.
    have [pred [m [S [nu [E2 [Hp2 [_ [_ [_ [_ [_ M2]]]]]]]]]]] := linear_regression_predictive_marginal He (HX x) Hd PD Ha Hb.
    exists post, (mvt_pdf m S nu (y%:M)), ev. split; first exact: E. split; first by exists mu', Di', a', b'.
    rewrite E2. cbn [bind]. rewrite (mv_pdf_mvt Hp2) (nig_of Hp) (nig_of Hd). split; first by []. split; first by [].
    split; [|split].
    + exists h. split; last by []. move=> v Hv. apply: is_vec_int_ext (Hh v Hv) => t. by rewrite regression_lik_one.
    + move=> [t v] Hv. rewrite Bp // regression_lik_one. by [].
    + have [g [Hg Ig]] := M2 y%:M. exists g. split; last by [].
      move=> v Hv. apply: is_vec_int_ext (Hg v Hv) => t. by rewrite regression_lik_one.
Qed.

(** ** a vector and a covariance matrix *)
Lemma over_vec_cone_unique n (f : 'cV[R]_n * 'M[R]_n -> R) u v : over_vec_cone f u -> over_vec_cone f v -> u = v.
Proof.
  move=> [g [Hg Ig]] [h [Hh Ih]]. apply: (is_cone_int_unique Ig).
  apply: (is_cone_int_ext _ Ih) => x Hx. exact: (is_vec_int_unique (Hh x Hx) (Hg x Hx)).
Qed.
Lemma over_vec_cone_scal n (f : 'cV[R]_n * 'M[R]_n -> R) c u : over_vec_cone f u -> over_vec_cone (fun t => (c * f t)%Re) (c * u)%Re.
Proof.
  move=> [g [Hg Ig]]. exists (fun v => (c * g v)%Re). split.
  - move=> v Hv. apply: is_vec_int_scal. exact: Hg.
  - exact: is_cone_int_scal.
Qed.
Lemma over_vec_cone_ext n (f g : 'cV[R]_n * 'M[R]_n -> R) u : (forall t, posdef t.2 -> f t = g t) -> over_vec_cone f u -> over_vec_cone g u.
Proof.
  move=> E [h [Hh Ih]]. exists h. split; last by []. move=> v Hv. apply: is_vec_int_ext (Hh v Hv) => t. exact: E.
Qed.
Lemma niw_of n d (mu : 'cV[R]_n) k nu psi : holds_niw d mu k nu psi -> niw_pdf_of (n := n) d = fun p => niw_pdf mu k nu psi p.1 p.2.
Proof.
  move=> [Hm [Hk [df [sc [E [Hd Hs]]]]]]. rewrite /niw_pdf_of E.
  by rewrite (vec_of_holds Hm) (num_of_sc Hk) (num_of_sc Hd) (mx_of_holds Hs).
Qed.

Lemma mvn_chain n outer (arr : 'cV[R]_n -> nd R) :
  makes_outer outer -> (forall x, holds_mx (arr x) x^T) ->
  prequential (@over_vec_cone n) (@niw_pdf_of n) (fun p x => mvn_pdf p.1 p.2 x)
    (fun d x => multivariate_normal (arr x) d outer)
    (fun d x => let* p := multivariate_normal_predictive d in Ok (mv_pdf Flat (MultivariateStudentT_dist p) x))
    (fun t => posdef t.2) (@niw_ok n) (fun _ => True).
Proof.
  move=> Ho HX. apply: prequential_intro.
  - exact: over_vec_cone_unique.
  - exact: over_vec_cone_scal.
  - exact: over_vec_cone_ext.
  - move=> d [mu [k [nu [psi [Hd [PP [Hnu Hk]]]]]]]. rewrite (niw_of Hd).
    exists (iw_pdf nu psi). split; last exact: iw_normalised.
    move=> S PS. exact: niw_inner.
  - move=> d x [mu [k [nu [psi [Hd [PP [Hnu Hk]]]]]]] _.
    have Hr : holds_mx (arr x) (rows [:: x]).
    { have -> : rows [:: x] = x^T; last exact: HX. apply/matrixP => i j. rewrite !mxE. case: i => [[|i] Hi] //. cbn [List.nth nat_of_ord]. congr (x j _). exact: val_inj. }
    have Hne : [:: x] <> [::] by [].
    have [post [mu' [k' [nu' [psi' [E [Hp [PP' [Hnu' [Hk' [h [ev [Hev [Hh [Ih Bp]]]]]]]]]]]]]]] :=
      mvn_posterior Ho Hr Hne Hd PP Hnu Hk.
    have [pred [S [E2 [Hp2 [_ [_ M2]]]]]] := mvn_predictive_marginal Hd PP Hnu Hk.
    exists post, (mvt_pdf mu S (nu - INR n + 1)%Re x), ev. split; first exact: E. split; first by exists mu', k', nu', psi'.
    rewrite E2. cbn [bind]. rewrite (mv_pdf_mvt Hp2) (niw_of Hp) (niw_of Hd). split; first by []. split; first by [].
    split; [|split].
    + exists h. split; last by []. move=> v Hv. apply: is_vec_int_ext (Hh v Hv) => t. by rewrite /mvn_lik2 lik_one.
    + move=> [t v] Hv. rewrite Bp // /mvn_lik2 lik_one. by [].
    + have [g [Hg Ig]] := M2 x. by exists g.
Qed.

(** ** averages over the predictive *)
Lemma known_covariance_calibrated n (l : layout) np_inv inv one (arr : 'cV[R]_n -> nd R) cov (covm : 'M[R]_n) :
  inverts np_inv -> inverts inv -> holds_sc one 1%Re -> (forall x, holds_vec l (arr x) x) -> holds_mx cov covm -> posdef covm ->
  calibrated (@is_vec_int n) (fun d => mv_pdf l (n := n) (MultivariateNormal_dist d))
    (fun d x => multivariate_normal_known_covariance np_inv one (arr x) cov d inv)
    (fun d x => let* p := multivariate_normal_known_covariance_predictive d cov in Ok (mv_pdf l (MultivariateNormal_dist p) x))
    anywhere (mvn_ok n l) (fun _ => True).
Proof.
  move=> Hn Hi H1 Ha Hc Pc. apply: (calibrated_intro (known_covariance_chain Hn Hi H1 Ha Hc Pc) (@is_vec_int n) (fun x => x)) => //.
  - move=> f c u. exact: is_vec_int_scal.
  - move=> d t _ _. split; first by []. exact: mvn_normalised.
Qed.
Lemma known_precision_calibrated n (l : layout) np_inv inv one (arr : 'cV[R]_n -> nd R) prec (P : 'M[R]_n) :
  inverts np_inv -> inverts inv -> holds_sc one 1%Re -> (forall x, holds_vec l (arr x) x) -> holds_mx prec P -> posdef P ->
  calibrated (@is_vec_int n) (fun d => mv_pdf l (n := n) (MultivariateNormal_dist d))
    (fun d x => multivariate_normal_known_precision np_inv one (arr x) prec d inv)
    (fun d x => let* p := multivariate_normal_known_precision_predictive d prec inv in Ok (mv_pdf l (MultivariateNormal_dist p) x))
    anywhere (mvn_ok n l) (fun _ => True).
Proof.
  move=> Hn Hi H1 Ha Hc Pc. apply: (calibrated_intro (known_precision_chain Hn Hi H1 Ha Hc Pc) (@is_vec_int n) (fun x => x)) => //.
  - move=> f c u. exact: is_vec_int_scal.
  - move=> d t _ _. split; first by []. apply: mvn_normalised. exact: posdef_inv.
Qed.
Lemma linear_regression_calibrated n (l : layout) inv eye X (x : 'cV[R]_n) (arrY : R -> nd R) :
  inverts inv -> makes_eye eye -> holds_mx X x^T -> (forall y, holds_vec l (arrY y) (y%:M : 'cV[R]_1)) ->
  calibrated (over_reals (Rbar_locally m_infty) (Rbar_locally p_infty)) (nig_pdf_of l (n := n))
    (fun d y => linear_regression X (arrY y) d inv)
    (fun d y => let* p := linear_regression_predictive d X eye in
                Ok (mv_pdf l (MultivariateStudentT_dist p) (y%:M : 'cV[R]_1)))
    (fun t => Rlt 0%Re t.2) (@nig_ok n l) (fun _ => True).
Proof.
  move=> Hi He HX HY d t Hd Ht.
  pose arrX (x' : 'cV[R]_n) : nd R := if x' == x then X else of_mx x'^T.
  have HA x' : holds_mx (arrX x') x'^T. { rewrite /arrX. case: eqP => [->|_] //. exact: of_mx_holds. }
  have EX : arrX x = X by rewrite /arrX eqxx.
  have := calibrated_intro (linear_regression_chain Hi He HA HY) (over_reals (Rbar_locally m_infty) (Rbar_locally p_infty))
    (fun y => (x, y)) (fun t => Rlt 0%Re t.2) (fun _ => True).
  cbn [fst snd]. rewrite EX. apply => //.
  - move=> f c u. exact: is_RInt_gen_mult_l.
  - move=> d' t' _ Ht'. split; first by []. rewrite /response_lik /over_reals. cbn [fst snd]. exact (norm_normalised ((x^T *m t'.1) 0 0) (sqrt t'.2) (sqrt_lt_R0 _ Ht')).
Qed.
Lemma mvn_calibrated n outer (arr : 'cV[R]_n -> nd R) :
  makes_outer outer -> (forall x, holds_mx (arr x) x^T) ->
  calibrated (@is_vec_int n) (@niw_pdf_of n)
    (fun d x => multivariate_normal (arr x) d outer)
    (fun d x => let* p := multivariate_normal_predictive d in Ok (mv_pdf Flat (MultivariateStudentT_dist p) x))
    (fun t => posdef t.2) (@niw_ok n) (fun _ => True).
Proof.
  move=> Ho HX. apply: (calibrated_intro (mvn_chain Ho HX) (@is_vec_int n) (fun x => x)) => //.
  - move=> f c u. exact: is_vec_int_scal.
  - move=> d t _ Ht. split; first by []. exact: mvn_normalised.
Qed.
