(** Posterior covariances are below the prior ones, as quadratic forms. *)

From Coq Require Import Reals ZArith Lra List.
From mathcomp Require Import all_ssreflect all_algebra.
From Verif Require Import Model.Num Model.Py Model.Dists Model.Models Model.NdArray Model.MatrixModel.
From Verif Require Import Analysis.RField Spec.Matrices Analysis.Posdef Spec.Arrays Proofs.Arrays
  Analysis.Regression Analysis.MvnBayes Proofs.LinReg Proofs.MvNormal.
Delimit Scope R_scope with Re.

Set Implicit Arguments.
Unset Strict Implicit.
Unset Printing Implicit Defensive.
Import GRing.Theory.
Local Open Scope ring_scope.

Section Inverse.
Variables (n : nat) (A B : 'M[R]_n).
Hypotheses (PA : posdef A) (SB : B^T = B) (NB : forall v, (0 <= quad B v)%Re).

Lemma inv_add v (u := invmx (A + B) *m v) :
  quad (invmx (A + B)) v = (quad A u + quad B u)%Re /\
  quad (invmx A) v = (quad A u + 2 * quad B u + quad A (u - invmx A *m v)%R)%Re.
Proof.
  have PAB := posdef_add PA SB NB. have UA := posdef_unit PA. have U := posdef_unit PAB.
  have E : quad (invmx (A + B)) v = (quad A u + quad B u)%Re by rewrite quad_inv // quadDA.
  split=> //.
  have SA := posdef_sym PA.
  have C : bil A u (invmx A *m v) = quad (invmx (A + B)) v.
  { rewrite /bil mulmxA mulmxK // /quad /u trmx_mul trmx_inv raddfD /= SA SB. by []. }
  rewrite quad_sub // C E -quad_inv //. lra.
Qed.

Lemma inv_antitone v : (quad (invmx (A + B)) v <= quad (invmx A) v)%Re.
Proof.
  case: (inv_add v). set u := invmx _ *m v. move=> -> ->.
  have H1 := NB u. have H2 := quad_nonneg (u - invmx A *m v) PA. lra.
Qed.

Lemma inv_strict v : (forall u, quad B u = 0%Re -> B *m u = 0) -> B *m (invmx A *m v) <> 0 ->
  (quad (invmx (A + B)) v < quad (invmx A) v)%Re.
Proof.
  move=> K N. case: (inv_add v). set u := invmx _ *m v. move=> -> ->.
  have H1 := NB u. have H2 := quad_nonneg (u - invmx A *m v) PA.
  case: (Rle_lt_or_eq_dec _ _ H1) => [H|H]; first lra.
  exfalso. apply: N. have Z := K u (esym H).
  have U := posdef_unit (posdef_add PA SB NB). have UA := posdef_unit PA.
  have E : A *m u = v by rewrite -[RHS](mulKVmx U) -/u mulmxDl Z addr0.
  by rewrite -E mulKmx.
Qed.
End Inverse.

Lemma gram_zero N n (X : 'M[R]_(N, n)) u : quad (X^T *m X) u = 0%Re -> X *m u = 0.
Proof.
  have -> : X^T *m X = X^T *m 1%:M *m X by rewrite mulmx1. rewrite quad_congr => H.
  case/boolP: (X *m u == 0) => [/eqP//|/eqP Nz].
  case: (posdef1 N) => _ /(_ _ Nz). rewrite H => /Rlt_irrefl [].
Qed.
Lemma gram_nonneg N n (X : 'M[R]_(N, n)) u : (0 <= quad (X^T *m X) u)%Re.
Proof.
  have -> : X^T *m X = X^T *m 1%:M *m X by rewrite mulmx1. rewrite quad_congr. exact: quad1_nonneg.
Qed.

(** ** Linear regression: the covariance of the coefficients, in units of the error variance *)
Lemma linear_regression_sharper N n l inv X y prior (Xm : 'M[R]_(N, n)) (ym : 'cV[R]_N) (mu : 'cV[R]_n) Di a b :
  inverts inv -> holds_mx X Xm -> holds_vec l y ym -> holds_nig l prior mu Di a b -> posdef Di ->
  exists post mu' Di' a' b', linear_regression X y prior inv = Ok post /\ holds_nig l post mu' Di' a' b' /\
    (forall v, (quad Di' v <= quad Di v)%Re) /\
    (forall v, Xm *m Di *m v <> 0 -> (quad Di' v < quad Di v)%Re) /\
    (forall v, Xm *m Di *m v = 0 -> quad Di' v = quad Di v).
Proof.
  move=> Hi HX Hy Hp PD. case: (linear_regression_computes Hi HX Hy Hp PD) => post [E H].
  exists post. do 4 eexists. split; first exact: E. split; first exact: H.
  have PI := posdef_inv PD. rewrite /D_post addrC.
  have SG : (Xm^T *m Xm)^T = Xm^T *m Xm by rewrite trmx_mul trmxK.
  split; last split.
  - move=> v. rewrite -{2}[Di]invmxK. apply: inv_antitone => // u. exact: gram_nonneg.
  - move=> v Nv. rewrite -{2}[Di]invmxK. apply: inv_strict => //.
    + move=> u. exact: gram_nonneg.
    + move=> u /gram_zero Z. by rewrite -mulmxA Z mulmx0.
    + rewrite invmxK => Z. apply: Nv. apply: gram_zero.
      by rewrite /quad trmx_mul -!mulmxA in Z *; rewrite Z !mulmx0 mxE.
  - move=> v Zv.
    have E2 : invmx (invmx Di + Xm^T *m Xm) *m v = Di *m v.
    { have U := posdef_unit (posdef_add PI SG (@gram_nonneg N n Xm)).
      have -> : v = (invmx Di + Xm^T *m Xm) *m (Di *m v).
      { rewrite mulmxDl mulKmx ?(posdef_unit PD) //. rewrite -!mulmxA in Zv *. by rewrite Zv mulmx0 addr0. }
      rewrite mulKmx //. congr (_ *m _). rewrite mulmxDl mulKmx ?(posdef_unit PD) //.
      rewrite -!mulmxA in Zv *. by rewrite Zv mulmx0 addr0. }
    by rewrite /quad -!mulmxA E2.
Qed.

(** ** Known covariance or precision *)
Section Known.
Variables (n : nat) (l : layout) (np_inv : nd R -> res (nd R)).
Hypothesis Hnp : inverts np_inv.
Variable inv : nd R -> res (nd R).
Hypothesis Hinv : inverts inv.

Lemma P_post_sharper (cov0 P : 'M[R]_n) (xs : list 'cV[R]_n) (cov' := invmx (P_post (invmx cov0) P xs)) : posdef cov0 -> posdef P ->
  (forall v, (quad cov' v <= quad cov0 v)%Re) /\
  (forall v, xs <> nil -> v <> 0 -> (quad cov' v < quad cov0 v)%Re /\ (INR (length xs) * quad cov' v < quad (invmx P) v)%Re).
Proof.
  move=> PD0 PD. have Q0 := posdef_inv PD0. rewrite /cov' /P_post.
  set N := INR _. have HN : (0 <= N)%Re by exact: pos_INR.
  have SP : (N *: P)^T = N *: P by rewrite linearZ /= (posdef_sym PD).
  have NP u : (0 <= quad (N *: P) u)%Re by rewrite quadZA; apply: Rmult_le_pos => //; exact: quad_nonneg.
  split.
  - move=> v. rewrite -{2}[cov0]invmxK. exact: inv_antitone.
  - move=> v Nx Nv.
    have HN' : (0 < N)%Re by rewrite /N; apply: lt_0_INR; apply/ltP; case: {N HN SP NP cov'} xs Nx.
    have PN := posdef_scale HN' PD. have UN := posdef_unit PN.
    have Z (B : 'M[R]_n) u : posdef B -> quad B u = 0%Re -> B *m u = 0.
    { move=> [_ PB]. case/boolP: (u == 0) => [/eqP-> _|/eqP Nu H]; first by rewrite mulmx0.
      move: (PB _ Nu). by rewrite H => /Rlt_irrefl []. }
    have inj (B C : 'M[R]_n) : posdef B -> posdef C -> B *m (C *m v) <> 0.
    { move=> PB PC H. apply: Nv. by rewrite -[v](mulKmx (posdef_unit PC)) -[C *m v](mulKmx (posdef_unit PB)) H !mulmx0. }
    split.
    + rewrite -{2}[cov0]invmxK. apply: inv_strict => //; first by move=> u; exact: Z.
      apply: inj => //. exact: posdef_inv.
    + have -> : quad (invmx P) v = (N * quad (invmx (N *: P)) v)%Re.
      { rewrite inv_scale // quadZA.
        rewrite -Rmult_assoc Rinv_r; last by apply: Rgt_not_eq. by rewrite Rmult_1_l. }
      change (INR (length xs)) with N. apply: Rmult_lt_compat_l => //. rewrite addrC. apply: inv_strict => //.
      * exact: posdef_sym.
      * move=> u. exact: quad_nonneg.
      * move=> u. exact: Z.
      * apply: inj => //. exact: posdef_inv.
Qed.

Lemma known_covariance_sharper (xs : list 'cV[R]_n) s cov prior (mu0 : 'cV[R]_n) cov0 covm :
  holds_sample l xs s -> holds_mx cov covm -> holds_mvn l prior mu0 cov0 -> posdef cov0 -> posdef covm ->
  exists post mu' (cov' : 'M[R]_n), multivariate_normal_known_covariance np_inv s.1 s.2 cov prior inv = Ok post /\
    holds_mvn l post mu' cov' /\
    (forall v, (quad cov' v <= quad cov0 v)%Re) /\
    (forall v, xs <> nil -> v <> 0 -> (quad cov' v < quad cov0 v)%Re /\ (INR (length xs) * quad cov' v < quad covm v)%Re).
Proof.
  move=> Hs Hc Hp PD0 PD. case: (known_covariance_computes Hnp Hinv Hs Hc Hp PD0 PD) => post [E H].
  exists post. do 2 eexists. split; first exact: E. split; first exact: H.
  case: (P_post_sharper xs PD0 (posdef_inv PD)) => H1 H2. split=> // v Nx Nv. case: (H2 v Nx Nv). by rewrite invmxK.
Qed.
Lemma known_precision_sharper (xs : list 'cV[R]_n) s prec prior (mu0 : 'cV[R]_n) cov0 P :
  holds_sample l xs s -> holds_mx prec P -> holds_mvn l prior mu0 cov0 -> posdef cov0 -> posdef P ->
  exists post mu' (cov' : 'M[R]_n), multivariate_normal_known_precision np_inv s.1 s.2 prec prior inv = Ok post /\
    holds_mvn l post mu' cov' /\
    (forall v, (quad cov' v <= quad cov0 v)%Re) /\
    (forall v, xs <> nil -> v <> 0 -> (quad cov' v < quad cov0 v)%Re /\ (INR (length xs) * quad cov' v < quad (invmx P) v)%Re).
Proof.
  move=> Hs Hc Hp PD0 PD. case: (known_precision_computes Hnp Hinv Hs Hc Hp PD0 PD) => post [E H].
  exists post. do 2 eexists. split; first exact: E. split; first exact: H. exact: P_post_sharper.
Qed.
End Known.
