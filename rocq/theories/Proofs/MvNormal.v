(** multivariate_normal_known_covariance / _known_precision and predictives. *)

From Coq Require Import Reals ZArith Lra List.
From mathcomp Require Import all_ssreflect all_algebra.
From Verif Require Import Model.Num Model.Py Model.Dists Model.Models Model.NdArray Model.MatrixModel.
From Verif Require Import Analysis.RField Spec.Matrices Analysis.Posdef Spec.Arrays Proofs.Arrays
  Analysis.Regression Analysis.MvnBayes Proofs.LinReg.
Delimit Scope R_scope with Re.

Set Implicit Arguments.
Unset Strict Implicit.
Unset Printing Implicit Defensive.
Import GRing.Theory.
Local Open Scope ring_scope.

Lemma cs_ok a x : holds_sc a x -> comp_sc (Ok a) x. Proof. by exists a. Qed.

Lemma holds_mvn_elim n l d (mu : 'cV[R]_n) cov : holds_mvn l d mu cov ->
  holds_vec l (MultivariateNormal_mu d) mu /\ holds_mx (MultivariateNormal_cov d) cov.
Proof. by move=> [m [c [[<- <-] H]]]. Qed.

Section Known.
Variables (n : nat) (l : layout) (np_inv : nd R -> res (nd R)).
Hypothesis Hnp : inverts np_inv.

Lemma helper_computes cnt x_bar_0 p0 x_bar p (xs : list 'cV[R]_n) xb mu0 (P0 P : 'M[R]_n) :
  holds_sc cnt (INR (length xs)) -> holds_vec l x_bar_0 mu0 -> holds_mx p0 P0 ->
  holds_vec l x_bar xb -> INR (length xs) *: xb = \sum_(x <- xs) x -> holds_mx p P ->
  posdef P0 -> posdef P ->
  exists mp pp, _multivariate_normal_known_precision cnt x_bar_0 p0 x_bar p np_inv = Ok (mp, pp) /\
    holds_vec l mp (m_post mu0 P0 P xs) /\ holds_mx pp (P_post P0 P xs).
Proof.
  move=> Hc H0 Hp0 Hx Exb Hp PD0 PD. have PP := P_post_posdef xs PD0 PD.
  rewrite /_multivariate_normal_known_precision.
  case: (cm_add (c_ok Hp0) (cm_scale (comp_sc_num (cs_ok Hc)) (c_ok Hp))) => pp [E1 Hpp].
  rewrite E1. cbn [bind].
  case: (Hnp Hpp PP) => ip [E2 Hip]. rewrite E2.
  case: (cv_mul (c_ok Hip) (cv_add (cv_mul (c_ok Hp0) (cv_ok H0))
           (cv_scale (cs_ok Hc) (cv_mul (c_ok Hp) (cv_ok Hx))))) => mp [E3 Hmp].
  rewrite E3. cbn [bind]. exists mp, pp. split=> //. split=> //.
  by move: Hmp; rewrite scalemxAr Exb.
Qed.

Variable inv : nd R -> res (nd R).
Hypothesis Hinv : inverts inv.

Lemma known_covariance_computes (xs : list 'cV[R]_n) s cov prior mu0 cov0 covm :
  holds_sample l xs s -> holds_mx cov covm -> holds_mvn l prior mu0 cov0 -> posdef cov0 -> posdef covm ->
  exists post, multivariate_normal_known_covariance np_inv s.1 s.2 cov prior inv = Ok post /\
    holds_mvn l post (m_post mu0 (invmx cov0) (invmx covm) xs) (invmx (P_post (invmx cov0) (invmx covm) xs)).
Proof.
  move=> [Hs [xb [Hx Exb]]] Hc /holds_mvn_elim [Hm Hc0] PD0 PD.
  have Q0 := posdef_inv PD0. have Q := posdef_inv PD. have PP := P_post_posdef xs Q0 Q.
  rewrite /multivariate_normal_known_covariance.
  case: (Hinv Hc0 PD0) => p0 [-> Hp0]. cbn [bind]. case: (Hinv Hc PD) => p [-> Hp]. cbn [bind].
  case: (helper_computes Hs Hm Hp0 Hx Exb Hp Q0 Q) => mp [pp [-> [Hmp Hpp]]]. cbn [bind].
  case: (Hinv Hpp PP) => cp [-> Hcp]. cbn [bind]. eexists. split; first reflexivity. by exists mp, cp.
Qed.
Lemma known_precision_computes (xs : list 'cV[R]_n) s prec prior mu0 cov0 P :
  holds_sample l xs s -> holds_mx prec P -> holds_mvn l prior mu0 cov0 -> posdef cov0 -> posdef P ->
  exists post, multivariate_normal_known_precision np_inv s.1 s.2 prec prior inv = Ok post /\
    holds_mvn l post (m_post mu0 (invmx cov0) P xs) (invmx (P_post (invmx cov0) P xs)).
Proof.
  move=> [Hs [xb [Hx Exb]]] Hp /holds_mvn_elim [Hm Hc0] PD0 PD.
  have Q0 := posdef_inv PD0. have PP := P_post_posdef xs Q0 PD.
  rewrite /multivariate_normal_known_precision.
  case: (Hinv Hc0 PD0) => p0 [-> Hp0]. cbn [bind].
  case: (helper_computes Hs Hm Hp0 Hx Exb Hp Q0 PD) => mp [pp [-> [Hmp Hpp]]]. cbn [bind].
  case: (Hinv Hpp PP) => cp [-> Hcp]. cbn [bind]. eexists. split; first reflexivity. by exists mp, cp.
Qed.

Lemma known_covariance_posterior (xs : list 'cV[R]_n) s cov prior mu0 cov0 covm :
  holds_sample l xs s -> holds_mx cov covm -> holds_mvn l prior mu0 cov0 -> posdef cov0 -> posdef covm ->
  exists post mu' cov', multivariate_normal_known_covariance np_inv s.1 s.2 cov prior inv = Ok post /\
    holds_mvn l post mu' cov' /\ posdef cov' /\
    vec_posterior (mvn_pdf mu0 cov0) (mvn_lik covm xs) (mvn_pdf mu' cov').
Proof.
  move=> Hs Hc Hp PD0 PD. case: (known_covariance_computes Hs Hc Hp PD0 PD) => post [E H].
  have Q0 := posdef_inv PD0. have Q := posdef_inv PD.
  eexists post, _, _. split=> //. split; first exact: H. split.
  - apply: posdef_inv. exact: P_post_posdef.
  - have := mvn_bayes mu0 xs Q0 Q. by rewrite !invmxK.
Qed.
Lemma known_precision_posterior (xs : list 'cV[R]_n) s prec prior mu0 cov0 P :
  holds_sample l xs s -> holds_mx prec P -> holds_mvn l prior mu0 cov0 -> posdef cov0 -> posdef P ->
  exists post mu' cov', multivariate_normal_known_precision np_inv s.1 s.2 prec prior inv = Ok post /\
    holds_mvn l post mu' cov' /\ posdef cov' /\
    vec_posterior (mvn_pdf mu0 cov0) (mvn_lik (invmx P) xs) (mvn_pdf mu' cov').
Proof.
  move=> Hs Hc Hp PD0 PD. case: (known_precision_computes Hs Hc Hp PD0 PD) => post [E H].
  have Q0 := posdef_inv PD0.
  eexists post, _, _. split=> //. split; first exact: H. split.
  - apply: posdef_inv. exact: P_post_posdef.
  - have := mvn_bayes mu0 xs Q0 PD. by rewrite !invmxK.
Qed.
Lemma known_covariance_precision_agree (xs : list 'cV[R]_n) s cov prec prior (mu0 : 'cV[R]_n) cov0 (covm : 'M[R]_n) :
  holds_sample l xs s -> holds_mx cov covm -> holds_mx prec (invmx covm) ->
  holds_mvn l prior mu0 cov0 -> posdef cov0 -> posdef covm ->
  exists post1 post2 (mu' : 'cV[R]_n) cov',
    multivariate_normal_known_covariance np_inv s.1 s.2 cov prior inv = Ok post1 /\
    multivariate_normal_known_precision np_inv s.1 s.2 prec prior inv = Ok post2 /\
    holds_mvn l post1 mu' cov' /\ holds_mvn l post2 mu' cov'.
Proof.
  move=> Hs Hc Hpr Hp PD0 PD. case: (known_covariance_computes Hs Hc Hp PD0 PD) => p1 [E1 H1].
  case: (known_precision_computes Hs Hpr Hp PD0 (posdef_inv PD)) => p2 [E2 H2].
  exists p1, p2, (m_post mu0 (invmx cov0) (invmx covm) xs), (invmx (P_post (invmx cov0) (invmx covm) xs)).
  by [].
Qed.

(** sequential *)
Definition seq_known_covariance (cov : nd R) (ss : list (nd R * nd R)) prior :=
  List.fold_left (fun r s => bind r (fun p => multivariate_normal_known_covariance np_inv s.1 s.2 cov p inv))
                 ss (Ok prior).
Lemma vsum_app (xs ys : list 'cV[R]_n) : vsum (xs ++ ys)%list = vsum xs + vsum ys.
Proof. exact: big_cat. Qed.
Lemma natural_update mu0 (P0 P : 'M[R]_n) xs : posdef P0 -> posdef P ->
  P_post P0 P xs *m m_post mu0 P0 P xs = P0 *m mu0 + P *m vsum xs.
Proof. move=> H0 H. by rewrite mulKVmx //; apply: posdef_unit; exact: P_post_posdef. Qed.

Lemma known_covariance_sequential (batches : list (list 'cV[R]_n)) ss s cov prior (mu0 : 'cV[R]_n) cov0 (covm : 'M[R]_n) :
  List.Forall2 (holds_sample l) batches ss -> holds_sample l (List.concat batches) s ->
  holds_mx cov covm -> holds_mvn l prior mu0 cov0 -> posdef cov0 -> posdef covm ->
  exists post1 post2 (mu' : 'cV[R]_n) cov',
    seq_known_covariance cov ss prior = Ok post1 /\
    multivariate_normal_known_covariance np_inv s.1 s.2 cov prior inv = Ok post2 /\
    holds_mvn l post1 mu' cov' /\ holds_mvn l post2 mu' cov'.
Proof.
  move=> HF Hs Hc Hp PD0 PD. have Q := posdef_inv PD. have Q0 := posdef_inv PD0.
  have G : forall prior (mu0 : 'cV[R]_n) cov0, holds_mvn l prior mu0 cov0 -> posdef cov0 ->
    exists post1 (mu' : 'cV[R]_n) cov', seq_known_covariance cov ss prior = Ok post1 /\
      holds_mvn l post1 mu' cov' /\ posdef cov' /\
      invmx cov' = P_post (invmx cov0) (invmx covm) (List.concat batches) /\
      invmx cov' *m mu' = invmx cov0 *m mu0 + invmx covm *m vsum (List.concat batches).
  { clear -HF Hc PD Q Hnp Hinv. elim: HF => [|bt sm bts sms Hb HF IH] prior mu0 cov0 Hp PD0.
    - exists prior, mu0, cov0. do 3 (split; first by []). rewrite /P_post /vsum big_nil mulmx0 addr0.
      by rewrite /= scale0r addr0.
    - case: (known_covariance_computes Hb Hc Hp PD0 PD) => p1 [E1 H1]. have Q0 := posdef_inv PD0.
      have PP := P_post_posdef bt Q0 Q.
      case: (IH _ _ _ H1 (posdef_inv PP)) => p2 [m2 [c2 [E2 [H2 [P2 [N1 N2]]]]]].
      exists p2, m2, c2. split; [|split; [|split; [|split]]] => //.
      + by rewrite /seq_known_covariance /= E1.
      + rewrite N1 invmxK /P_post -addrA -scalerDl. congr (_ + _ *: _).
        rewrite RplusE -plus_INR. congr INR. symmetry. exact: List.app_length.
      + by rewrite N2 invmxK natural_update // -addrA -mulmxDr -vsum_app. }
  case: (G _ _ _ Hp PD0) => p1 [m1 [c1 [E1 [H1 [P1 [N1 N2]]]]]].
  case: (known_covariance_computes Hs Hc Hp PD0 PD) => p2 [E2 H2].
  set ms := m_post mu0 _ _ _ in H2. set cs := invmx _ in H2.
  have Ec : c1 = cs by rewrite /cs -N1 invmxK.
  have Em : m1 = ms.
  { have U := posdef_unit (posdef_inv P1). apply: (can_inj (mulKmx U)). rewrite N2 N1 /ms natural_update //. }
  subst c1 m1. by exists p1, p2, ms, cs.
Qed.

Lemma known_covariance_predictive d cov (mu0 : 'cV[R]_n) cov0 (covm : 'M[R]_n) :
  holds_mvn l d mu0 cov0 -> holds_mx cov covm -> posdef cov0 -> posdef covm ->
  exists pred (mu' : 'cV[R]_n) cov', multivariate_normal_known_covariance_predictive d cov = Ok pred /\
    holds_mvn l pred mu' cov' /\ posdef cov' /\
    forall x, vec_marginal (mvn_pdf mu0 cov0) (fun t => mvn_pdf t covm x) (mvn_pdf mu' cov' x).
Proof.
  move=> /holds_mvn_elim [Hm Hc0] Hc PD0 PD. rewrite /multivariate_normal_known_covariance_predictive.
  case: (cm_add (c_ok Hc0) (c_ok Hc)) => cp [-> Hcp]. cbn [bind].
  eexists _, mu0, (cov0 + covm). split; first reflexivity. split; first by exists (MultivariateNormal_mu d), cp.
  split; first exact: posdef_addp. move=> x. exact: mvn_marginal.
Qed.
Lemma known_precision_predictive d prec (mu0 : 'cV[R]_n) cov0 (P : 'M[R]_n) :
  holds_mvn l d mu0 cov0 -> holds_mx prec P -> posdef cov0 -> posdef P ->
  exists pred (mu' : 'cV[R]_n) cov', multivariate_normal_known_precision_predictive d prec inv = Ok pred /\
    holds_mvn l pred mu' cov' /\ posdef cov' /\
    forall x, vec_marginal (mvn_pdf mu0 cov0) (fun t => mvn_pdf t (invmx P) x) (mvn_pdf mu' cov' x).
Proof.
  move=> /holds_mvn_elim [Hm Hc0] Hc PD0 PD. rewrite /multivariate_normal_known_precision_predictive.
  case: (Hinv Hc PD) => c [-> Hci].
  case: (cm_add (c_ok Hc0) (c_ok Hci)) => cp [-> Hcp]. cbn [bind].
  eexists _, mu0, (cov0 + invmx P). split; first reflexivity. split; first by exists (MultivariateNormal_mu d), cp.
  have Q := posdef_inv PD. split; first exact: posdef_addp. move=> x. exact: mvn_marginal.
Qed.
End Known.

(** ** the user's inversion routine is not used everywhere *)
Definition of_flat n (v : 'cV[R]_n) : nd R :=
  mkNd [:: n] (fun i => match i with [:: r] => match insub r with Some r' => v r' 0 | None => 0 end | _ => 0 end).
Lemma of_flat_holds n (v : 'cV[R]_n) : holds_vec Flat (of_flat v) v.
Proof. split=> //= i. rewrite !insubT //= => Hi. congr (v _ _); exact: val_inj. Qed.

Lemma posdef_1J n : posdef (1%:M + const_mx 1 : 'M[R]_n).
Proof.
  apply: posdef_add; first exact: posdef1.
  - by rewrite trmx_const.
  - move=> v. have ->: (const_mx 1 : 'M[R]_n) = (const_mx 1 : 'M[R]_(1, n))^T *m const_mx 1.
    { apply/matrixP => i j. by rewrite !mxE big_ord1 !mxE mulr1. }
    rewrite XtX_quad. exact: quad1_nonneg.
Qed.

Definition raising_inv (a : nd R) : res (nd R) := Raise LinAlgError.
Lemma raising_known_covariance cnt xb cov prior inv post :
  multivariate_normal_known_covariance raising_inv cnt xb cov prior inv <> Ok post.
Proof.
  rewrite /multivariate_normal_known_covariance /_multivariate_normal_known_precision.
  case: (inv _) => [p0|e] //=. case: (inv _) => [p|e] //=.
  case: (map2 _ cnt p) => [q|e] //=. by case: (map2 _ p0 q).
Qed.
Lemma raising_known_precision cnt xb prec prior inv post :
  multivariate_normal_known_precision raising_inv cnt xb prec prior inv <> Ok post.
Proof.
  rewrite /multivariate_normal_known_precision /_multivariate_normal_known_precision.
  case: (inv _) => [p0|e] //=.
  case: (map2 _ cnt prec) => [q|e] //=. by case: (map2 _ p0 q).
Qed.

Definition ex_cov : 'M[R]_2 := 1%:M + const_mx 1.
Definition ex_prior : MultivariateNormal (nd R) := mkMultivariateNormal (of_flat (0 : 'cV[R]_2)) (of_mx ex_cov).
Definition ex_xs : list 'cV[R]_2 := [:: const_mx 1; 0].
Definition ex_sample : nd R * nd R := (scalar 2%Re, of_flat (const_mx (/ 2)%Re : 'cV[R]_2)).
Lemma ex_sample_holds : holds_sample Flat ex_xs ex_sample.
Proof.
  split; first by split=> //=; ring. exists (const_mx (/ 2)%Re). split; first exact: of_flat_holds.
  rewrite /ex_xs !big_cons big_nil. apply/matrixP => i j. rewrite !mxE !addr0. rewrite RmultE RoneE /=. field.
Qed.
Lemma ex_prior_holds : holds_mvn Flat ex_prior (0 : 'cV[R]_2) ex_cov.
Proof.
  exists (of_flat (0 : 'cV[R]_2)), (of_mx ex_cov). split=> //. split; [exact: of_flat_holds | exact: of_mx_holds].
Qed.

Lemma custom_inv_not_enough :
  exists inv cnt xb cov prior, inverts inv /\
    (exists post, multivariate_normal_known_covariance inv cnt xb cov prior inv = Ok post) /\
    (forall post, multivariate_normal_known_covariance raising_inv cnt xb cov prior inv <> Ok post).
Proof.
  exists real_inv, ex_sample.1, ex_sample.2, (of_mx ex_cov), ex_prior. split; first exact: real_inv_inverts.
  split; last by move=> post; exact: raising_known_covariance.
  case: (known_covariance_computes real_inv_inverts real_inv_inverts ex_sample_holds (of_mx_holds ex_cov)
           ex_prior_holds (posdef_1J 2) (posdef_1J 2)) => post [E _].
  by exists post.
Qed.
Lemma custom_inv_refuted :
  ~ (forall np_inv np_inv' inv cnt xb cov prior,
       multivariate_normal_known_covariance np_inv cnt xb cov prior inv
       = @multivariate_normal_known_covariance R NumR np_inv' cnt xb cov prior inv).
Proof.
  move=> H. case: custom_inv_not_enough => inv [cnt [xb [cov [prior [_ [[post E] N]]]]]].
  apply: (N post). by rewrite (H raising_inv inv).
Qed.
