(** docs/examples/linear-regression.md: a regression line and its predictions. *)

From Coq Require Import Reals ZArith Lra List.
From mathcomp Require Import all_ssreflect all_algebra.
From Verif Require Import Model.Num Model.Py Model.Dists Model.Models Model.NdArray Model.MatrixModel Model.DocPrograms.
From Verif Require Import Analysis.RField Spec.Matrices Analysis.Posdef Spec.Arrays Proofs.Arrays Analysis.Regression Proofs.LinReg.
Delimit Scope R_scope with Re.

Set Implicit Arguments.
Unset Strict Implicit.
Unset Printing Implicit Defensive.
Import GRing.Theory.
Local Open Scope ring_scope.

Definition with_intercept N (x : 'cV[R]_N) : 'M[R]_(N, 2) := \matrix_(i, j) (if j == 0 then 1%Re else x i 0).

Lemma create_X_holds N a (x : 'cV[R]_N) : holds_vec Flat a x -> holds_mx (create_X a) (with_intercept x).
Proof.
  move=> [S H]. split; first by rewrite /create_X /= S.
  move=> i j. rewrite mxE /create_X /=. case: j => [[|[|k]] Hk] //=.
Qed.

Lemma sum2 (f : 'I_2 -> R) : \sum_(i < 2) f i = (f 0%R + f 1%R)%Re.
Proof.
  rewrite big_ord_recl big_ord_recl big_ord0 addr0 RplusE. congr (_ + _). congr (f _). exact: val_inj.
Qed.

Lemma sum_ones N : \sum_(i < N) (1%Re : R) = INR N.
Proof. elim: N => [|N IH]; first by rewrite big_ord0. by rewrite big_ord_recr S_INR IH. Qed.

Section Line.
Variables (D : 'M[R]_2).
Hypothesis PD : posdef D.
Let S := posdef_sym PD.

Lemma D10 : D 1 0 = D 0 1.
Proof. by rewrite -{1}S mxE. Qed.

Definition point (x : R) : 'cV[R]_2 := \matrix_(i, _) (if i == 0 then 1%Re else x).

Lemma quad_point (u v : R) : quad D (\matrix_(i, _) (if i == 0 then u else v)) = (D 0%R 0%R * u ^ 2 + 2 * D 0%R 1%R * u * v + D 1%R 1%R * v ^ 2)%Re.
Proof. rewrite /quad !mxE sum2 !mxE !sum2 !mxE /= D10. toR. ring. Qed.

Lemma D11_pos : (0 < D 1%R 1%R)%Re.
Proof.
  have H : (\matrix_(i, _) (if i == 0 then 0%Re else 1%Re) : 'cV[R]_2) <> 0.
  { move=> /matrixP /(_ 1 0). rewrite !mxE /=. toR. lra. }
  move: (PD.2 _ H). rewrite quad_point. lra.
Qed.

Lemma quad_centre x : quad D (point x) = (quad D (point (- D 0%R 1%R / D 1%R 1%R)) + D 1%R 1%R * (x - - D 0%R 1%R / D 1%R 1%R) ^ 2)%Re.
Proof. rewrite !quad_point. have P := D11_pos. field. lra. Qed.
End Line.

(** The line and the spread of its predictions. *)
Lemma prediction_widens N M l inv eye ax ay an prior (x ym : 'cV[R]_N) (xn : 'cV[R]_M) (mu : 'cV[R]_2) (Di : 'M[R]_2) (a b : R) :
  inverts inv -> makes_eye eye -> holds_vec Flat ax x -> holds_vec l ay ym -> holds_vec Flat an xn ->
  holds_nig l prior mu Di a b -> posdef Di -> (0 < a)%Re -> (0 < b)%Re ->
  let P := invmx Di in
  exists post pred m S nu intercept slope spread,
    linear_regression (create_X ax) ay prior inv = Ok post /\
    linear_regression_predictive post (create_X an) eye = Ok pred /\
    holds_mvt l pred m S nu /\
    (forall i, m i 0 = (intercept + slope * xn i 0%R)%Re) /\
    (forall i, (0 < S i i)%Re) /\ (0 < spread)%Re /\
    let centre := (((\sum_i x i 0%R) + P 0%R 1%R) / (INR N + P 0%R 0%R))%Re in
    forall i j, (S j j - S i i = spread * ((xn j 0%R - centre) ^ 2 - (xn i 0%R - centre) ^ 2))%Re.
Proof.
  move=> Hinv Heye Hx Hy Hn Hp PD Ha Hb P.
  have PP : posdef P := posdef_inv PD.
  case: (linear_regression_computes Hinv (create_X_holds Hx) Hy Hp PD) => post [E H].
  set L := D_post (with_intercept x) P in H.
  have PL : posdef L by apply: D_post_posdef.
  have PD' : posdef (invmx L) := posdef_inv PL.
  have Ha' := a_post_pos N Ha. have Hb' := b_post_pos (with_intercept x) ym mu PD Hb.
  case: (linear_regression_predictive_marginal Heye (create_X_holds Hn) H PD' Ha' Hb') => pred [m [S [nu [E2 [H2 [PS [_ [Em [_ [ES _]]]]]]]]]].
  set c := (b_post _ _ _ _ _ / _)%Re in ES.
  have Pc : (0 < c)%Re by apply: Rdiv_lt_0_compat.
  set D := invmx L in PD' ES.
  exists post, pred, m, S, nu. eexists _, _, (c * D 1%R 1%R)%Re.
  split; first exact: E. split; first exact: E2. split; first exact: H2.
  split. { move=> i. rewrite Em !mxE sum2 !mxE /=. toR. rewrite Rmult_1_l (Rmult_comm (xn i 0%R)). reflexivity. }
  have SE i : S i i = (c * (1 + quad D (point (xn i 0%R))))%Re.
  { rewrite ES !mxE eqxx mulr1n quad_point //. rewrite sum2 !mxE !sum2 !mxE /= (D10 PD'). toR.  ring. }
  split. { move=> i. rewrite SE. apply: Rmult_lt_0_compat => //. have := quad_nonneg (point (xn i 0%R)) PD'. lra. }
  have P11 := D11_pos PD'. split; first exact: Rmult_lt_0_compat.
  have L00 : L 0 0 = (INR N + P 0%R 0%R)%Re.
  { rewrite /L /D_post mxE. congr (_ + _). rewrite !mxE. rewrite -sum_ones. apply: eq_bigr => i _. rewrite !mxE /=. by rewrite mulr1. }
  have L01 : L 0 1 = (\sum_i x i 0%R + P 0%R 1%R)%Re.
  { rewrite /L /D_post mxE. congr (_ + _). rewrite !mxE. apply: eq_bigr => i _. rewrite !mxE /=. by rewrite mul1r. }
  have LD : (L 0%R 0%R * D 0%R 1%R + L 0%R 1%R * D 1%R 1%R = 0)%Re.
  { have /matrixP /(_ 0 1) Q := mulmxV (posdef_unit PL). rewrite mxE sum2 in Q.
    have Z : (1%:M : 'M[R]_2) 0 1 = 0%Re by rewrite mxE.
    by rewrite Z in Q. }
  have PL0 : (0 < L 0%R 0%R)%Re.
  { have Z : (\matrix_(i, _) (if i == 0 then 1%Re else 0%Re) : 'cV[R]_2) <> 0.
    { move=> /matrixP /(_ 0 0). rewrite !mxE /=. toR. lra. }
    move: (PL.2 _ Z). rewrite quad_point //. lra. }
  move=> centre i j. rewrite !SE (quad_centre PD' (xn i 0%R)) (quad_centre PD' (xn j 0%R)).
  have ->: (- D 0%R 1%R / D 1%R 1%R)%Re = centre.
  { rewrite /centre -L00 -L01. move: LD PL0 P11. move: (L 0 0) (L 0 1) (D 0 1) (D 1 1) => p q r t LD P0 P1.
    have ->: q = (- (p * r) / t)%Re by apply: (Rmult_eq_reg_r t); [field_simplify; lra | lra].
    field. lra. }
  have RR (p q r s t : R) : (p * (1 + (q + r * s)) - p * (1 + (q + r * t)) = p * r * (s - t))%Re by ring.
  exact: RR.
Qed.

Lemma further_is_wider N M l inv eye ax ay an prior (x ym : 'cV[R]_N) (xn : 'cV[R]_M) (mu : 'cV[R]_2) (a b : R) :
  inverts inv -> makes_eye eye -> holds_vec Flat ax x -> holds_vec l ay ym -> holds_vec Flat an xn ->
  holds_nig l prior mu 1%:M a b -> (0 < a)%Re -> (0 < b)%Re ->
  exists post pred m S nu,
    linear_regression (create_X ax) ay prior inv = Ok post /\ linear_regression_predictive post (create_X an) eye = Ok pred /\
    holds_mvt l pred m S nu /\
    let centre := ((\sum_i x i 0%R) / (INR N + 1))%Re in
    forall i j, (Rabs (xn i 0%R - centre) < Rabs (xn j 0%R - centre) -> S i i < S j j)%Re.
Proof.
  move=> Hi He Hx Hy Hn Hp Ha Hb.
  case: (prediction_widens Hi He Hx Hy Hn Hp (posdef1 2) Ha Hb) => post [pred] [m] [S] [nu] [c0] [c1] [sp] [E1] [E2] [H] [_] [_] [Psp] W.
  exists post, pred, m, S, nu. split=> //. split=> //. split=> //. move=> centre i j L.
  have Ec : ((\sum_i x i 0%R + (invmx (1%:M : 'M[R]_2)) 0%R 1%R) / (INR N + (invmx (1%:M : 'M[R]_2)) 0%R 0%R))%Re = centre.
  { rewrite invmx1 !mxE /= /centre. rewrite mulr1n mulr0n. have E0 : forall s q : R, ((s + (0 : R)) / q = s / q)%Re by move=> s q; rewrite (Rplus_0_r s). exact: E0. }
  move: (W i j). cbv zeta. rewrite Ec => D.
  have Q := Rsqr_lt_abs_1 _ _ L. rewrite !Rsqr_pow2 in Q.
  have : (0 < sp * ((xn j 0%R - centre) ^ 2 - (xn i 0%R - centre) ^ 2))%Re by apply: Rmult_lt_0_compat => //; lra.
  lra.
Qed.
