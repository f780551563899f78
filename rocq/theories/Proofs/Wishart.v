(** multivariate_normal_known_mean, multivariate_normal and its predictive. *)

From Coq Require Import Reals ZArith Lra List.
From mathcomp Require Import all_ssreflect all_algebra.
From Verif Require Import Model.Num Model.Py Model.Dists Model.ScipyDist Model.Models Model.NdArray Model.MatrixModel.
From Verif Require Import Spec.Special Spec.Densities Spec.Bayes Analysis.GammaBeta.
From Verif Require Import Analysis.RField Spec.Matrices Spec.Wishart Analysis.Posdef Spec.Arrays Spec.OneDim Proofs.Arrays
  Analysis.Regression Analysis.MvnBayes Analysis.MultiGauss Analysis.InvWishart Analysis.WishartBayes Proofs.LinReg Proofs.MvNormal.
Delimit Scope R_scope with Re.

Set Implicit Arguments.
Unset Strict Implicit.
Unset Printing Implicit Defensive.
Import GRing.Theory.
Local Open Scope ring_scope.

Lemma list_nth_nth T (d : T) (l : list T) i : List.nth i l d = nth d l i.
Proof. elim: l i => [|x l IH] [|i] //=. Qed.
Lemma sum_rows (V : zmodType) T (d : T) (l : list T) (F : T -> V) :
  \sum_(i < length l) F (List.nth i l d) = \sum_(x <- l) F x.
Proof.
  rewrite (big_nth d) big_mkord. apply: eq_bigr => i _. by rewrite list_nth_nth.
Qed.
Lemma outerE n (u v : 'cV[R]_n) i j : (u *m v^T) i j = u i 0 * v j 0.
Proof. by rewrite mxE big_ord1 mxE. Qed.
Lemma rows_scat n (xs : list 'cV[R]_n) (m : 'cV[R]_n) :
  let D := \matrix_(i < length xs, j < n) (rows xs i j - m j 0%R)%Re in D^T *m D = scat xs m.
Proof.
  apply/matrixP => p q. rewrite mxE /scat summxE -(sum_rows 0 xs (fun x => ((x - m) *m (x - m)^T) p q)).
  apply: eq_bigr => i _. rewrite outerE !mxE. by [].
Qed.

Lemma holds_iw_elim n d nu (psi : 'M[R]_n) : holds_iw d nu psi ->
  holds_sc (InverseWishart_nu d) nu /\ holds_mx (InverseWishart_psi d) psi.
Proof. by move=> [a [b [[<- <-] H]]]. Qed.

Lemma cm_rowsub m n r s (M : 'M[R]_(m, n)) (v : 'cV[R]_n) : comp_mx r M -> comp_vec Flat s v ->
  comp_mx (nsub' r s) (\matrix_(i, j) (M i j - v j 0%R)%Re).
Proof. exact: (comp_mx_flat Rminus). Qed.

Lemma known_mean_computes n X muA prior (xs : list 'cV[R]_n) mu nu psi :
  holds_mx X (rows xs) -> holds_vec Flat muA mu -> holds_iw prior nu psi ->
  exists post, multivariate_normal_known_mean X muA prior = Ok post /\
    holds_iw post (nu + INR (length xs))%Re (psi_km mu xs psi).
Proof.
  move=> HX Hm /holds_iw_elim [Hn Hp].
  rewrite /multivariate_normal_known_mean /shape0 (proj1 HX). cbn [bind].
  case: (cs_add (cs_ok Hn) (cs_int (length xs))) => np [E1 Hnp]. rewrite E1. cbn [bind].
  have HD := cm_rowsub (c_ok HX) (cv_ok Hm).
  case: (cm_add (c_ok Hp) (cm_mul (cm_tr HD) HD)) => pp [E2 Hpp]. rewrite E2. cbn [bind].
  eexists. split; first reflexivity. exists np, pp. split=> //. split=> //.
  by move: Hpp; rewrite rows_scat.
Qed.

Lemma known_mean_posterior n X muA prior (xs : list 'cV[R]_n) mu nu psi :
  holds_mx X (rows xs) -> holds_vec Flat muA mu -> holds_iw prior nu psi ->
  posdef psi -> (INR n - 1 < nu)%Re ->
  exists post nu' psi', multivariate_normal_known_mean X muA prior = Ok post /\
    holds_iw post nu' psi' /\ posdef psi' /\ (INR n - 1 < nu')%Re /\
    cone_posterior (iw_pdf nu psi) (fun S => mvn_lik S xs mu) (iw_pdf nu' psi').
Proof.
  move=> HX Hm Hp PP Hnu. case: (known_mean_computes HX Hm Hp) => post [E H].
  eexists post, _, _. split=> //. split; first exact: H. split; first exact: psi_km_posdef.
  split; first exact: km_Hnu. exact: km_bayes.
Qed.

Lemma scat_app n (xs ys : list 'cV[R]_n) m : scat (xs ++ ys)%list m = scat xs m + scat ys m.
Proof. exact: big_cat. Qed.

Lemma known_mean_sequential n muA prior (batches : list (list 'cV[R]_n)) Xs X (mu : 'cV[R]_n) nu (psi : 'M[R]_n) :
  List.Forall2 (fun (xs : list 'cV[R]_n) X => holds_mx X (rows xs)) batches Xs -> holds_mx X (rows (List.concat batches)) ->
  holds_vec Flat muA mu -> holds_iw prior nu psi ->
  exists post1 post2 nu' psi',
    List.fold_left (fun r X => bind r (fun p => multivariate_normal_known_mean X muA p)) Xs (Ok prior) = Ok post1 /\
    multivariate_normal_known_mean X muA prior = Ok post2 /\
    holds_iw post1 nu' (psi' : 'M[R]_n) /\ holds_iw post2 nu' psi'.
Proof.
  move=> HF HX Hm Hp. case: (known_mean_computes HX Hm Hp) => post2 [E2 H2].
  have G : exists post1, List.fold_left (fun r X => bind r (fun p => multivariate_normal_known_mean X muA p)) Xs (Ok prior) = Ok post1 /\
    holds_iw post1 (nu + INR (length (List.concat batches)))%Re (psi_km mu (List.concat batches) psi).
  { clear - HF Hm Hp. elim: HF prior nu psi Hp => [|xs A bts As H HF IH] prior nu psi Hp.
    - exists prior. split=> //. rewrite /psi_km /scat big_nil addr0 /= Rplus_0_r. exact: Hp.
    - case: (known_mean_computes H Hm Hp) => p1 [E1 H1].
      case: (IH _ _ _ H1) => p2 [E2 H2]. exists p2. split; first by rewrite /= E1.
      move: H2. rewrite /psi_km -addrA -scat_app Rplus_assoc -plus_INR. cbn [List.concat].
      by rewrite List.app_length. }
  case: G => post1 [E1 H1]. by exists post1, post2, (nu + INR (length (List.concat batches)))%Re, (psi_km mu (List.concat batches) psi).
Qed.

(** ** unknown mean *)
Lemma np_outer_makes_outer : makes_outer np_outer.
Proof.
  move=> n a b u v [Sa Ea] [Sb Eb]. eexists; split; first reflexivity.
  rewrite /holds_mx /= Sa Sb /= /ravel /=.
  have E1 (i : 'I_n) : [:: (Nat.divmod i 0 0 0).1] = [:: nat_of_ord i] by rewrite -[X in [:: X]]/(Nat.div i 1) Nat.div_1_r.
  split.
  - by rewrite /MatrixModel.size /= Nat.mul_1_r.
  - move=> i j. rewrite /MatrixModel.size /unravel /=. rewrite outerE -Ea -Eb.
    by rewrite !E1.
Qed.
Lemma mean0_computes n X (xs : list 'cV[R]_n) : holds_mx X (rows xs) ->
  exists m, @mean0 R NumR X = Ok m /\ holds_vec Flat m (xbar xs).
Proof.
  move=> [S E]. rewrite /mean0 S. eexists; split; first reflexivity. split=> // i /=.
  rewrite nsum_big -INR_IZR_INZ /xbar !mxE.
  rewrite /vsum summxE -(sum_rows 0 xs (fun x => x i 0)).
  rewrite /Rdiv. rewrite [RHS]Rmult_comm. congr Rmult.
  apply: eq_bigr => k _. by rewrite E mxE.
Qed.

Lemma holds_ext m n a (M N : 'M[R]_(m, n)) : holds_mx a M -> M = N -> holds_mx a N. Proof. by move=> H <-. Qed.

Section NIW.
Variables (n : nat) (outer : nd R -> nd R -> res (nd R)).
Hypothesis Ho : makes_outer outer.

Lemma mvn_computes X prior (xs : list 'cV[R]_n) mu k nu psi :
  holds_mx X (rows xs) -> holds_niw prior mu k nu psi ->
  exists post, multivariate_normal X prior outer = Ok post /\
    holds_niw post (mu_niw mu k xs) (k_niw k xs) (nu + INR (length xs))%Re (psi_niw mu k psi xs).
Proof.
  move=> HX [Hm [Hk /holds_iw_elim [Hn Hp]]].
  rewrite /multivariate_normal /shape0 (proj1 HX). cbn [bind].
  case: (mean0_computes HX) => xm [-> Hxm]. cbn [bind].
  have HD := cm_rowsub (c_ok HX) (cv_ok Hxm).
  case: (cm_mul (cm_tr HD) HD) => C [E1 HC]. rewrite E1. cbn [bind]. rewrite rows_scat in HC.
  case: (cv_div (cv_add (cv_scaler (cv_ok Hm) (cs_ok Hk)) (cv_scale (cs_int (length xs)) (cv_ok Hxm)))
     (cs_add (cs_ok Hk) (cs_int (length xs)))) => mp [E2 Hmp]. rewrite E2. cbn [bind].
  case: (cs_add (cs_ok Hk) (cs_int (length xs))) => kp [E3 Hkp]. rewrite E3. cbn [bind].
  case: (cs_add (cs_ok Hn) (cs_int (length xs))) => np [E4 Hnp]. 
  rewrite -[InverseWishart_nu _]/(NormalInverseWishart_nu prior) in E4. rewrite E4. cbn [bind].
  case: (cv_sub (cv_ok Hxm) (cv_ok Hm)) => df [E5 Hdf]. rewrite E5. cbn [bind].
  case: (Ho Hdf Hdf) => oo [E6 Hoo]. rewrite E6.
  have T := cm_div (cm_scaler (cm_scaler (c_ok Hoo) (comp_sc_num (cs_int (length xs)))) (comp_sc_num (cs_ok Hk)))
           (comp_sc_num (cs_ok Hkp)).
  case: (cm_add (cm_add (c_ok Hp) (c_ok HC)) T) => pp [E7 Hpp].
  rewrite -[InverseWishart_psi _]/(NormalInverseWishart_psi prior) in E7. rewrite E7. cbn [bind].
  eexists. split; first reflexivity. split; [exact: Hmp | split; [exact: Hkp |]].
  exists np, pp. split=> //. split=> //.
  apply: (holds_ext Hpp). rewrite !scalerA /psi_niw. congr (_ + _ *: _).
  rewrite /k_niw -[length xs]/(seq.size xs). move: (INR (seq.size xs)) => N. toR. rewrite /Rdiv. ring.
Qed.

Lemma mvn_posterior X prior (xs : list 'cV[R]_n) mu k nu psi :
  holds_mx X (rows xs) -> xs <> [::] -> holds_niw prior mu k nu psi ->
  posdef psi -> (INR n - 1 < nu)%Re -> (0 < k)%Re ->
  exists post mu' k' nu' psi', multivariate_normal X prior outer = Ok post /\
    holds_niw post mu' k' nu' psi' /\ posdef psi' /\ (INR n - 1 < nu')%Re /\ (0 < k')%Re /\
    cone_posterior2 (niw_pdf mu k nu psi) (mvn_lik2 xs) (niw_pdf mu' k' nu' psi').
Proof.
  move=> HX Hne Hp PP Hnu Hk. case: (mvn_computes HX Hp) => post [E H].
  eexists post, _, _, _, _. split=> //. split; first exact: H.
  split; first exact: psi_niw_posdef. split; first exact: niw_Hnu. split; first exact: k_niw_pos.
  exact: niw_bayes.
Qed.

Lemma mxDE m p (A B : 'M[R]_(m, p)) i j : (A + B) i j = A i j + B i j. Proof. by rewrite mxE. Qed.
Lemma mxZE m p c (A : 'M[R]_(m, p)) i j : (c *: A) i j = c * A i j. Proof. by rewrite mxE. Qed.

Lemma mxNE m p (A : 'M[R]_(m, p)) i j : (- A) i j = - A i j. Proof. by rewrite mxE. Qed.

(** additive natural parameters *)
Definition ssq (xs : list 'cV[R]_n) : 'M[R]_n := \sum_(x <- xs) x *m x^T.
Lemma ssq_app (xs ys : list 'cV[R]_n) : ssq (xs ++ ys)%list = ssq xs + ssq ys. Proof. exact: big_cat. Qed.
Lemma scat_entry (xs : list 'cV[R]_n) m i j :
  scat xs m i j = (ssq xs i j - vsum xs i 0%R * m j 0%R - m i 0%R * vsum xs j 0%R + INR (length xs) * (m i 0%R * m j 0%R))%Re.
Proof.
  elim: xs => [|x xs IH].
  - rewrite /scat /ssq /vsum !big_nil !mxE /=. toR. ring.
  - rewrite scat_cons /ssq /vsum !big_cons -/(ssq xs) -/(vsum xs).
    rewrite mxE [(x *m x^T + _) _ _]mxE [(x + _) i _]mxE [(x + _) j _]mxE IH !outerE.
    rewrite [(x - m) i 0]mxE [(- m) i 0]mxE [(x - m) j 0]mxE [(- m) j 0]mxE.
    rewrite -[length (x :: xs)]/((length xs).+1) S_INR.
    move: (INR (length xs)) (ssq xs i j) => a b. toR. ring.
Qed.
Lemma natural_niw mu k psi (xs : list 'cV[R]_n) : (0 < k)%Re -> xs <> [::] ->
  k_niw k xs *: mu_niw mu k xs = k *: mu + vsum xs /\
  psi_niw mu k psi xs + k_niw k xs *: (mu_niw mu k xs *m (mu_niw mu k xs)^T) =
    psi + k *: (mu *m mu^T) + ssq xs.
Proof.
  move=> Hk Hne. have Hk' := k_niw_pos Hk Hne. have V := vsum_xbar Hne.
  split.
  - rewrite V /mu_niw scalerA. have ->: k_niw k xs * (/ k_niw k xs)%Re = 1 by toR; rewrite Rinv_r //; lra.
    by rewrite scale1r.
  - apply/matrixP => i j. rewrite /psi_niw /mu_niw. move: (xbar xs) V => xb V.
    rewrite !(mxDE, mxZE, outerE) scat_entry V !(mxDE, mxZE, mxNE).
    move: (xb i 0) (xb j 0) (mu i 0) (mu j 0) (psi i j) (ssq xs i j) => a b c d e f.
    rewrite /k_niw in Hk' *. move: Hk'. rewrite -[length xs]/(seq.size xs).
    move: (INR (seq.size xs)) => N HN. toR. field. lra.
Qed.

Lemma mvn_sequential prior (batches : list (list 'cV[R]_n)) Xs X (mu : 'cV[R]_n) k nu (psi : 'M[R]_n) :
  List.Forall2 (fun (xs : list 'cV[R]_n) X => holds_mx X (rows xs)) batches Xs ->
  holds_mx X (rows (List.concat batches)) ->
  batches <> [::] -> List.Forall (fun xs => xs <> [::]) batches ->
  holds_niw prior mu k nu psi -> (0 < k)%Re ->
  exists post1 post2 mu' k' nu' psi',
    List.fold_left (fun r X => bind r (fun p => multivariate_normal X p outer)) Xs (Ok prior) = Ok post1 /\
    multivariate_normal X prior outer = Ok post2 /\
    holds_niw post1 (mu' : 'cV[R]_n) k' nu' psi' /\ holds_niw post2 mu' k' nu' psi'.
Proof.
  move=> HF HX Hne HNE Hp Hk. case: (mvn_computes HX Hp) => post2 [E2 H2].
  have Hcat : List.concat batches <> [::].
  { case: batches Hne HNE {HF HX E2 H2} => [//|b bs] _ H /=. move: (List.Forall_inv H) => {H}.
    by case: b. }
  have G : exists post1 (mu' : 'cV[R]_n) k' nu' psi',
    List.fold_left (fun r X => bind r (fun p => multivariate_normal X p outer)) Xs (Ok prior) = Ok post1 /\
    holds_niw post1 mu' k' nu' psi' /\ (0 < k')%Re /\
    k' = (k + INR (length (List.concat batches)))%Re /\ nu' = (nu + INR (length (List.concat batches)))%Re /\
    k' *: mu' = k *: mu + vsum (List.concat batches) /\
    psi' + k' *: (mu' *m mu'^T) = psi + k *: (mu *m mu^T) + ssq (List.concat batches).
  { clear - Ho HF HNE Hp Hk. elim: HF HNE prior mu k nu psi Hp Hk => [|xs A bts As H HF IH] HNE prior mu k nu psi Hp Hk.
    - exists prior, mu, k, nu, psi. rewrite /= /vsum /ssq !big_nil !addr0 !Rplus_0_r. by [].
    - case: (mvn_computes H Hp) => p1 [E1 H1]. have Hx := List.Forall_inv HNE.
      have Hk1 := k_niw_pos Hk Hx. case: (natural_niw mu psi Hk Hx) => N1 N2.
      case: (IH (List.Forall_inv_tail HNE) _ _ _ _ _ H1 Hk1) => p2 [m2 [k2 [n2 [s2 [E2 [H2 [P2 [Ek [En [Em Es]]]]]]]]]].
      exists p2, m2, k2, n2, s2. split; first by rewrite /= E1. split=> //. split=> //. cbn [List.concat].
      rewrite !List.app_length plus_INR. split; [|split; [|split]].
      + by rewrite Ek /k_niw -Rplus_assoc.
      + by rewrite En -Rplus_assoc.
      + by rewrite Em N1 -addrA -vsum_app.
      + by rewrite Es N2 -addrA -ssq_app. }
  case: G => post1 [m1 [k1 [n1 [s1 [E1 [H1 [P1 [Ek [En [Em Es]]]]]]]]]].
  case: (natural_niw mu psi Hk Hcat) => N1 N2.
  have Ek' : k1 = k_niw k (List.concat batches) by rewrite Ek.
  rewrite Ek' in H1 Em Es P1. rewrite En in H1.
  have Em' : m1 = mu_niw mu k (List.concat batches).
  { move: Em. rewrite -N1. move: (mu_niw mu k (List.concat batches)) => m2.
    move=> /(f_equal (fun v => (/ k_niw k (List.concat batches))%Re *: v)). rewrite !scalerA.
    have ->: (/ k_niw k (List.concat batches))%Re * k_niw k (List.concat batches) = 1 by toR; rewrite Rinv_l //; lra.
    by rewrite !scale1r. }
  have Es' : s1 = psi_niw mu k psi (List.concat batches).
  { move: Es. rewrite Em' -N2. exact: addIr. }
  rewrite Em' Es' in H1.
  by exists post1, post2, (mu_niw mu k (List.concat batches)), (k_niw k (List.concat batches)),
    (nu + INR (length (List.concat batches)))%Re, (psi_niw mu k psi (List.concat batches)).
Qed.
End NIW.

Lemma mvn_predictive_computes n d (mu : 'cV[R]_n) k nu psi : holds_niw d mu k nu psi ->
  exists pred, multivariate_normal_predictive d = Ok pred /\
    holds_mvt Flat pred mu (scale_niw k nu psi) (df_niw n nu).
Proof.
  move=> [Hm [Hk /holds_iw_elim [Hn Hp]]]. rewrite /multivariate_normal_predictive.
  rewrite /shape0 (proj1 Hp). cbn [bind].
  case: (cs_add (cs_sub (cs_ok Hn) (cs_int n)) (cs_lit 1)) => nu' [E1 Hnu'].
  rewrite -[InverseWishart_nu _]/(NormalInverseWishart_nu d) in E1. rewrite E1. cbn [bind].
  case: (cm_div (cm_scale (comp_sc_num (cs_add (cs_ok Hk) (cs_lit 1))) (c_ok Hp))
     (comp_sc_num (cs_mul (cs_ok Hk) (cs_ok Hnu')))) => sg [E2 Hsg].
  rewrite -[InverseWishart_psi _]/(NormalInverseWishart_psi d) in E2. rewrite E2. cbn [bind].
  eexists. split; first reflexivity. eexists _, _, _. split; first reflexivity.
  split; first exact: Hm. split; last by left.
  apply: (holds_ext Hsg). rewrite /scale_niw /df_niw scalerA. congr (_ *: _).
  by rewrite RmultE Rmult_comm.
Qed.
Lemma mvn_predictive_marginal n d (mu : 'cV[R]_n) k nu psi : holds_niw d mu k nu psi ->
  posdef psi -> (INR n - 1 < nu)%Re -> (0 < k)%Re ->
  exists pred S, multivariate_normal_predictive d = Ok pred /\
    holds_mvt Flat pred mu S (nu - INR n + 1)%Re /\ posdef S /\ (0 < nu - INR n + 1)%Re /\
    forall x, cone_marginal2 (niw_pdf mu k nu psi) (fun t Sig => mvn_pdf t Sig x) (mvt_pdf mu S (nu - INR n + 1)%Re x).
Proof.
  move=> Hd PP Hnu Hk. case: (mvn_predictive_computes Hd) => pred [E H].
  exists pred, (scale_niw k nu psi). split=> //. split=> //. split; [|split; first lra].
  - apply: posdef_scale => //. apply: Rdiv_lt_0_compat; first lra. apply: Rmult_lt_0_compat => //. rewrite /df_niw. lra.
  - move=> x. rewrite -[(nu - INR n + 1)%Re]/(df_niw n nu) -(niw_evid_one mu x PP Hnu Hk).
    have Hx : [:: x] <> [::] by []. case: (niw_marginal mu PP Hnu Hk Hx) => h [H1 H2].
    exists h. split=> // Sig PS. apply: is_vec_int_ext (H1 Sig PS) => t.
    rewrite /mvn_lik2 /mvn_lik big_seq1. by [].
Qed.

(** ** one dimension *)
Lemma one_dim_mx (A : 'M[R]_1) x : A 0 0 = x -> A = x%:M.
Proof. move=> <-. apply/matrixP => i j. by rewrite !ord1 mxE mulr1n. Qed.
Lemma scal_00 (x : R) : (x%:M : 'M[R]_1) 0 0 = x. Proof. by rewrite mxE mulr1n. Qed.
Lemma vsum_col1 l : vsum (col1 l) 0 0 = sumR l.
Proof.
  elim: l => [|x l IH]; first by rewrite /vsum big_nil mxE.
  rewrite /vsum big_cons -/(vsum (col1 l)) mxDE scal_00 IH. by [].
Qed.
Lemma ssq_col1 l : ssq (col1 l) 0 0 = sumR (List.map (fun x => (x ^ 2)%Re) l).
Proof.
  elim: l => [|x l IH]; first by rewrite /ssq big_nil mxE.
  rewrite /ssq big_cons -/(ssq (col1 l)) mxDE outerE !scal_00 IH /= Rmult_1_r. by [].
Qed.

Lemma one_dim_posterior M outer X prior data (m k nu p : R) : makes_outer outer ->
  data <> [::] -> holds_mx X (rows (col1 data)) ->
  holds_niw prior (m%:M : 'cV[R]_1) k nu (p%:M : 'M[R]_1) -> (0 < k)%Re ->
  exists post m' k' nu' p',
    multivariate_normal X prior outer = Ok post /\
    holds_niw post (m'%:M : 'cV[R]_1) k' nu' (p'%:M : 'M[R]_1) /\
    normal (sumR data) (sumR (List.map (fun x => (x ^ 2)%Re) data)) (INR (length data))
      (PNIG (M := M) (mkNormalInverseGamma m (nu / 2)%Re (p / 2)%Re None (Some k))) =
    Ok (PNIG (mkNormalInverseGamma m' (nu' / 2)%Re (p' / 2)%Re None (Some k'))).
Proof.
  move=> Ho Hne HX Hp Hk. have Hx : col1 data <> [::] by case: data Hne {HX}.
  case: (mvn_computes Ho HX Hp) => post [E H]. have Hk' := k_niw_pos Hk Hx.
  case: (natural_niw (m%:M : 'cV[R]_1) (p%:M : 'M[R]_1) Hk Hx).
  set mu' := mu_niw _ _ _ in H *. set psi' := psi_niw _ _ _ _ in H *. set k' := k_niw k _ in H Hk' *.
  clearbody mu' psi'.
  move=> /matrixP/(_ 0 0) N1 /matrixP/(_ 0 0) N2.
  rewrite !(mxDE, mxZE, outerE) !scal_00 ?vsum_col1 ?ssq_col1 in N1 N2.
  exists post, (mu' 0 0), k', (nu + INR (length (col1 data)))%Re, (psi' 0 0).
  split=> //. split.
  - by rewrite -(one_dim_mx (A := mu') erefl) -(one_dim_mx (A := psi') erefl).
  - have HN : INR (length (col1 data)) = INR (length data) by rewrite /col1 List.map_length.
    have Ek : k' = (k + INR (length data))%Re by rewrite -HN.
    have HN0 : INR (length data) <> 0%Re.
    { apply: not_0_INR. by case: data Hne {HX Hp E H mu' psi' k' Hk' N1 N2 HN Ek Hx}. }
    rewrite /normal /= HN.
    have Em : ((k * m + INR (length data) * (sumR data / INR (length data))) / (k + INR (length data)) = mu' 0%R 0%R)%Re.
    { rewrite -Ek. move: N1. toR. move=> N1. apply: (Rmult_eq_reg_l k'); last lra. rewrite N1. field. split=> //. lra. }
    rewrite Em -Ek. do 2 f_equal.
    have ->: (nu / 2 + INR (length data) / 2 = (nu + INR (length data)) / 2)%Re by field.
    f_equal. move: N2. toR. rewrite /nsq /=. move=> N2. move: N2.
    move: (mu' 0 0) (psi' 0 0) (sumR (List.map _ data)) => a b c N2. lra.
Qed.

Lemma one_dim_predictive M d (m k nu p : R) :
  holds_niw d (m%:M : 'cV[R]_1) k nu (p%:M : 'M[R]_1) -> (0 < k)%Re -> (0 < nu)%Re -> (0 < p)%Re ->
  exists pred (S : 'M[R]_1) df t,
    multivariate_normal_predictive d = Ok pred /\ holds_mvt Flat pred (m%:M : 'cV[R]_1) S df /\
    normal_predictive (PNIG (M := M) (mkNormalInverseGamma m (nu / 2)%Re (p / 2)%Re None (Some k))) = Ok t /\
    forall x, mvt_pdf (m%:M : 'cV[R]_1) S df x%:M = pdf (StudentT_dist t) x.
Proof.
  move=> Hd Hk Hnu Hp. case: (mvn_predictive_computes Hd) => pred [E H].
  exists pred, (scale_niw k nu p%:M), (df_niw 1 nu). eexists. split=> //. split=> //. split; first reflexivity.
  move=> x.
  have Edf : df_niw 1 nu = nu by rewrite /df_niw /=; ring.
  set w := ((k + 1) * p / (k * nu))%Re.
  have Hw : (0 < w)%Re by apply: Rdiv_lt_0_compat; apply: Rmult_lt_0_compat; lra.
  have Es : scale_niw k nu p%:M = w%:M :> 'M[R]_1.
  { have E0 : ((k + 1) / (k * nu) * p = w)%Re by rewrite /w; field; lra.
    by rewrite /scale_niw Edf scale_scalar_mx -E0. }
  have Ei : invmx (w%:M : 'M[R]_1) = (/ w)%Re%:M by rewrite invmx_scalar RinvE //; lra.
  rewrite Es Edf /mvt_pdf Ei det_scalar1.
  have Eq : quad ((/ w)%Re%:M : 'M[R]_1) (x%:M - m%:M) = ((x - m) ^ 2 / w)%Re.
  { rewrite -raddfB /= /quad tr_scalar_mx -!scalar_mxM scal_00. toR. field. lra. }
  rewrite Eq /StudentT_dist /= /locscale /std_t /=.
  have Hpi := PI_RGT_0.
  have ->: (2 * (nu / 2) = nu)%Re by field.
  have ->: (p / 2 * (k + 1) / (k * (nu / 2)) = w)%Re by rewrite /w; field; lra.
  have Hsw : (0 < sqrt w)%Re by exact: sqrt_lt_R0.
  have Hsn : (0 < sqrt (PI * nu))%Re by apply: sqrt_lt_R0; exact: Rmult_lt_0_compat.
  have ->: (nu * PI * 1 * w = PI * nu * w)%Re by ring.
  rewrite sqrt_mult_alt; last by apply: Rlt_le; exact: Rmult_lt_0_compat.
  have G : (0 < Gamma_fun (nu / 2))%Re by apply: GammaBeta.Gamma_fun_pos; lra.
  have ->: ((x - m) / sqrt w * ((x - m) / sqrt w * 1) = (x - m) ^ 2 / w)%Re.
  { rewrite -{3}(sqrt_sqrt w); last lra. field. lra. }
  rewrite /= . field. lra.
Qed.

Lemma from_iw_holds n (m k : nd R) (iw : InverseWishart (nd R)) (mu : 'cV[R]_n) (kappa nu : R) (psi : 'M[R]_n) :
  holds_vec Flat m mu -> holds_sc k kappa -> holds_iw iw nu psi ->
  holds_niw (NormalInverseWishart_from_inverse_wishart m k iw) mu kappa nu psi.
Proof. move=> H1 H2 [df [sc [E [H3 H4]]]]. split=> //. split=> //. exists df, sc. by case: iw E. Qed.
