(** linear_regression and linear_regression_predictive. *)

From Coq Require Import Reals ZArith Lra List.
From mathcomp Require Import all_ssreflect all_algebra.
From Verif Require Import Model.Num Model.Py Model.Dists Model.Models Model.NdArray Model.MatrixModel.
From Verif Require Import Analysis.RField Spec.Matrices Analysis.Posdef Spec.Arrays Proofs.Arrays Analysis.Regression.
Delimit Scope R_scope with Re.

Set Implicit Arguments.
Unset Strict Implicit.
Unset Printing Implicit Defensive.
Import GRing.Theory.
Local Open Scope ring_scope.

Lemma c_ok m n a (M : 'M[R]_(m, n)) : holds_mx a M -> comp_mx (Ok a) M. Proof. by exists a. Qed.
Lemma cv_ok n l a (M : 'cV[R]_n) : holds_vec l a M -> comp_vec l (Ok a) M. Proof. by exists a. Qed.
Lemma cn_ok a x : holds_num a x -> comp_num (Ok a) x. Proof. by exists a. Qed.

Lemma linear_regression_computes N n l inv X y prior (Xm : 'M[R]_(N, n)) ym mu Di a b :
  inverts inv -> holds_mx X Xm -> holds_vec l y ym -> holds_nig l prior mu Di a b -> posdef Di ->
  exists post, linear_regression X y prior inv = Ok post /\
    holds_nig l post (mu_post Xm ym mu (invmx Di)) (invmx (D_post Xm (invmx Di)))
              (a_post N a) (b_post Xm ym mu Di b).
Proof.
  move=> Hinv HX Hy [Hmu [Ha [Hb [Hnu [m [Hm HDi]]]]]] PD.
  rewrite /linear_regression. rewrite /shape0 (proj1 HX) /= Hm /=.
  case: (Hinv _ _ _ HDi PD) => delta [-> Hdelta] /=.
  have PDD := posdef_inv PD. have PD' := D_post_posdef Xm PDD.
  case: (cm_add (cm_mul (cm_tr (c_ok HX)) (c_ok HX)) (c_ok Hdelta)) => dp [E1 Hdp].
  rewrite /= in E1. rewrite E1 /=.
  case: (Hinv _ _ _ Hdp PD') => dpi [-> Hdpi] /=.
  case: (cv_mul (c_ok Hdpi) (cv_add (cv_mul (c_ok Hdelta) (cv_ok Hmu)) (cv_mul (cm_tr (c_ok HX)) (cv_ok Hy))))
    => mp [E2 Hmp].
  rewrite /= in E2. rewrite E2 /=.
  case: (cn_add (cn_ok Ha) (comp_sc_num (cs_mul cs_half (cs_int N)))) => al [E3 Hal].
  rewrite /= in E3. rewrite E3 /=.
  case: (cn_add (cn_ok Hb) (cn_mul (comp_sc_num cs_half)
    (cn_sub (cn_add (cn_dot (cv_tr (cv_ok Hy)) (cv_ok Hy))
                    (cn_dot (cr_mul (cv_tr (cv_ok Hmu)) (c_ok Hdelta)) (cv_ok Hmu)))
            (cn_dot (cr_mul (cv_tr (cv_ok Hmp)) (c_ok Hdp)) (cv_ok Hmp))))) => be [E4 Hbe].
  rewrite /= in E4. rewrite E4 /=.
  eexists. split; first reflexivity. split; [exact: Hmp|split; [|split; [|split]]].
  - move: Hal. rewrite /a_post /=. have ->: (/ 2 * INR N = INR N / 2)%Re by rewrite /Rdiv Rmult_comm. by [].
  - move: Hbe. rewrite /b_post /excess /=.
    rewrite -/(mu_post Xm ym mu (invmx Di)) -/(D_post Xm (invmx Di)).
    rewrite -/(quad (invmx Di) mu) -/(quad (D_post Xm (invmx Di)) (mu_post Xm ym mu (invmx Di))).
    have ->: (ym^T *m ym) 0 0 = quad 1%:M ym by rewrite /quad mulmx1.
    set e := (quad 1%:M ym + _ - _)%Re. by have ->: (/ 2 * e = e / 2)%Re by rewrite /Rdiv Rmult_comm.
  - by [].
  - by exists dpi.
Qed.

Lemma linear_regression_posterior N n l inv X y prior (Xm : 'M[R]_(N, n)) ym mu Di a b :
  inverts inv -> holds_mx X Xm -> holds_vec l y ym -> holds_nig l prior mu Di a b ->
  posdef Di -> (0 < a)%Re -> (0 < b)%Re ->
  exists post mu' Di' a' b', linear_regression X y prior inv = Ok post /\
    holds_nig l post mu' Di' a' b' /\ posdef Di' /\ (0 < a')%Re /\ (0 < b')%Re /\
    vec_posterior2 (mv_nig_pdf mu Di a b) (regression_lik Xm ym) (mv_nig_pdf mu' Di' a' b').
Proof.
  move=> Hinv HX Hy Hp PD Ha Hb.
  case: (linear_regression_computes Hinv HX Hy Hp PD) => post [E H].
  exists post, (mu_post Xm ym mu (invmx Di)), (invmx (D_post Xm (invmx Di))), (a_post N a), (b_post Xm ym mu Di b).
  split=> //. split=> //. split; first exact: Di_post_posdef.
  split; first exact: a_post_pos. split; first exact: b_post_pos. exact: regression_bayes.
Qed.

(** ** natural parameters *)
Section Natural.
Variable n : nat.
Definition nat_state : Type := ('M[R]_n * 'cV[R]_n * R * R)%type.
Definition nat_of (mu : 'cV[R]_n) (Di : 'M[R]_n) (a b : R) : nat_state :=
  (invmx Di, invmx Di *m mu, a, (b + quad (invmx Di) mu / 2)%Re).
Definition plus (s t : nat_state) : nat_state :=
  let '(D, m, a, b) := s in let '(D', m', a', b') := t in (D + D', m + m', (a + a')%Re, (b + b')%Re).
Arguments plus : simpl never.
Definition zero : nat_state := (0, 0, 0%Re, 0%Re).
Definition stat1 (o : obs n) : nat_state := (o.1 *m o.1^T, o.2 *: o.1, (/ 2)%Re, (o.2 * o.2 / 2)%Re).
Definition stats (l : list (obs n)) : nat_state := List.fold_right (fun o s => plus (stat1 o) s) zero l.

Lemma plus_assoc s t u : plus s (plus t u) = plus (plus s t) u.
Proof.
  case: s => [[[D1 m1] a1] b1]; case: t => [[[D2 m2] a2] b2]; case: u => [[[D3 m3] a3] b3]; rewrite /plus.
  by rewrite !addrA !Rplus_assoc.
Qed.
Lemma plus_0 s : plus s zero = s.
Proof. case: s => [[[D1 m1] a1] b1]. rewrite /plus /zero. by rewrite !addr0 !Rplus_0_r. Qed.
Lemma plus_0l s : plus zero s = s.
Proof. case: s => [[[D1 m1] a1] b1]. rewrite /plus /zero. by rewrite !add0r !Rplus_0_l. Qed.
Lemma stats_app l1 l2 : stats (l1 ++ l2)%list = plus (stats l1) (stats l2).
Proof. elim: l1 => [|o l1 IH] /=; first by rewrite plus_0l. by rewrite IH plus_assoc. Qed.

Lemma nat_of_inj mu Di a b mu' Di' a' b' : posdef Di ->
  nat_of mu Di a b = nat_of mu' Di' a' b' -> [/\ mu = mu', Di = Di', a = a' & b = b'].
Proof.
  move=> PD [E1 E2 E3 E4].
  have ED : Di = Di' by rewrite -[Di]invmxK E1 invmxK. subst Di'.
  have EM : mu = mu'.
  { have U := posdef_unit (posdef_inv PD). by rewrite -[mu](mulKmx U) E2 mulKmx. }
  subst mu'. split=> //. lra.
Qed.

Lemma gram (l : list (obs n)) :
  ((design l)^T *m design l, (design l)^T *m response l, (INR (length l) / 2)%Re,
   (quad 1%:M (response l) / 2)%Re) = stats l.
Proof.
  elim: l => [|o l IH].
  - rewrite /= /zero. f_equal; [f_equal; [f_equal|]|].
    + apply/matrixP => i j. by rewrite !mxE big_ord0.
    + apply/matrixP => i j. by rewrite !mxE big_ord0.
    + field.
    + rewrite quad1 big_ord0 RzeroE. field.
  - rewrite [stats _]/= -IH /plus /stat1. f_equal; [f_equal; [f_equal|]|].
    + apply/matrixP => i j. rewrite !mxE big_ord_recl. rewrite big_ord_recl big_ord0 !mxE /= addr0.
      congr (_ + _). apply: eq_bigr => k _. by rewrite !mxE.
    + apply/matrixP => i j. rewrite !mxE big_ord_recl ord1 !mxE /=. congr (_ + _); first exact: mulrC.
      apply: eq_bigr => k _. by rewrite !mxE.
    + rewrite [length _](erefl : _ = (length l).+1) S_INR. field.
    + rewrite !quad1 big_ord_recl !mxE /=. rewrite RplusE RmultE.
      have ->: \sum_(i < length l) (response (o :: l) (lift ord0 i) 0 * response (o :: l) (lift ord0 i) 0)
              = \sum_i (response l i 0 * response l i 0) by apply: eq_bigr => k _; rewrite !mxE.
      by rewrite /Rdiv Rmult_plus_distr_r.
Qed.

Lemma nat_update mu Di a b (l : list (obs n)) : posdef Di ->
  nat_of (mu_post (design l) (response l) mu (invmx Di)) (invmx (D_post (design l) (invmx Di)))
         (a_post (length l) a) (b_post (design l) (response l) mu Di b)
  = plus (nat_of mu Di a b) (stats l).
Proof.
  move=> PD. have PDD := posdef_inv PD. have PD' := D_post_posdef (design l) PDD.
  have U' := posdef_unit PD'. rewrite -gram /nat_of invmxK /plus. congr (_, _, _, _).
  - by rewrite /D_post addrC.
  - by rewrite /mu_post mulmxA mulmxV // mul1mx.
  - rewrite /b_post /excess. field.
Qed.
End Natural.

Definition seq_regression inv (arrays : list (nd R * nd R)) prior :=
  List.fold_left (fun r d => bind r (fun p => linear_regression d.1 d.2 p inv)) arrays (Ok prior).

Lemma linear_regression_sequential n l inv prior (mu : 'cV[R]_n) Di a b
  (batches : list (list (obs n))) arrays everything :
  inverts inv -> holds_nig l prior mu Di a b -> posdef Di ->
  List.Forall2 (holds_data l) batches arrays -> holds_data l (List.concat batches) everything ->
  exists post1 post2 (mu' : 'cV[R]_n) Di' a' b',
    seq_regression inv arrays prior = Ok post1 /\
    linear_regression everything.1 everything.2 prior inv = Ok post2 /\
    holds_nig l post1 mu' Di' a' b' /\ holds_nig l post2 mu' Di' a' b'.
Proof.
  move=> Hinv Hp PD HF [HX Hy].
  have G : forall prior (mu : 'cV[R]_n) Di a b, holds_nig l prior mu Di a b -> posdef Di ->
    exists post1 (mu' : 'cV[R]_n) Di' a' b', seq_regression inv arrays prior = Ok post1 /\
      holds_nig l post1 mu' Di' a' b' /\ posdef Di' /\
      nat_of mu' Di' a' b' = plus (nat_of mu Di a b) (stats (List.concat batches)).
  { clear -HF Hinv. elim: HF => [|bt ar bts ars [H1 H2] HF IH] prior mu Di a b Hp PD.
    - exists prior, mu, Di, a, b. do 3 (split; first by []). symmetry. exact: plus_0.
    - case: (linear_regression_computes Hinv H1 H2 Hp PD) => p1 [E1 Hp1].
      case: (IH _ _ _ _ _ Hp1 (Di_post_posdef (design bt) PD)) => p2 [m2 [D2 [a2 [b2 [E2 [H3 [H4 H5]]]]]]].
      exists p2, m2, D2, a2, b2. split; [|split; [|split]] => //.
      + by rewrite /seq_regression /= E1.
      + rewrite H5 nat_update // -plus_assoc -stats_app //. }
  case: (G _ _ _ _ _ Hp PD) => p1 [m1 [D1 [a1 [b1 [E1 [H1 [P1 N1]]]]]]].
  case: (linear_regression_computes Hinv HX Hy Hp PD) => p2 [E2 H2].
  rewrite -(nat_update mu a b (List.concat batches) PD) in N1.
  case: (nat_of_inj P1 N1) => e1 e2 e3 e4. subst m1 D1 a1 b1.
  by exists p1, p2, (mu_post (design (List.concat batches)) (response (List.concat batches)) mu (invmx Di)),
     (invmx (D_post (design (List.concat batches)) (invmx Di))), (a_post (length (List.concat batches)) a),
     (b_post (design (List.concat batches)) (response (List.concat batches)) mu Di b).
Qed.

Lemma np_eye_makes_eye : makes_eye np_eye.
Proof.
  move=> n. eexists; split; first reflexivity. split=> //= i j. rewrite mxE.
  case: (Nat.eqb_spec i j) => [E|N].
  - have ->: i = j by exact: val_inj. by rewrite eqxx.
  - case: eqP => [E|_] //. by rewrite E in N.
Qed.

Lemma linear_regression_predictive_marginal N n l eye X d (Xm : 'M[R]_(N, n)) mu Di a b :
  makes_eye eye -> holds_mx X Xm -> holds_nig l d mu Di a b -> posdef Di -> (0 < a)%Re -> (0 < b)%Re ->
  exists pred m S nu, linear_regression_predictive d X eye = Ok pred /\
    holds_mvt l pred m S nu /\ posdef S /\ (0 < nu)%Re /\
    m = Xm *m mu /\ nu = (2 * a)%Re /\ S = (b / a)%Re *: (1%:M + Xm *m Di *m Xm^T) /\
    forall y, vec_marginal2 (mv_nig_pdf mu Di a b) (regression_lik Xm y) (mvt_pdf m S nu y).
Proof.
  move=> Heye HX [Hmu [HA [HB [Hnu [di [Hdi HDi]]]]]] PD Ha Hb.
  rewrite /linear_regression_predictive Hdi.
  case: (cv_mul (c_ok HX) (cv_ok Hmu)) => lo [E1 H1]. rewrite E1. cbn [bind].
  have He : comp_mx (bind (shape0 X) eye) (1%:M : 'M[R]_N) by rewrite /shape0 (proj1 HX) /=; exact: Heye.
  case: (cm_scale (cn_div (cn_ok HB) (cn_ok HA))
    (cm_add He (cm_mul (cm_mul (c_ok HX) (c_ok HDi)) (cm_tr (c_ok HX))))) => sg [E2 H2].
  rewrite E2. cbn [bind].
  case: (cn_mul (comp_sc_num (cs_lit 2)) (cn_ok HA)) => nu [E3 H3]. rewrite E3. cbn [bind].
  exists (mkMultivariateStudentT lo sg nu), (Xm *m mu), (pred_scale Xm Di a b), (2 * a)%Re.
  split; first reflexivity. split; first by exists lo, sg, nu.
  split; first exact: pred_scale_posdef. split; first lra. do 3 (split; first by []).
  move=> y. rewrite -evid_t //. exact: regression_marginal.
Qed.

(** a prior with [nu] instead of [delta_inverse] *)
Lemma linear_regression_needs_matrix A (NA : Num A) X y (prior : NormalInverseGamma (nd A) (nd A) (nd A)) inv n s :
  nd_shape X = n :: s -> NormalInverseGamma_delta_inverse prior = None ->
  linear_regression X y prior inv = Raise LinAlgError.
Proof. by move=> HX HN; rewrite /linear_regression /shape0 HX /= HN. Qed.
