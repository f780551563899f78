(** Iterated integrals over R^n and the multivariate Gaussian integral. *)

From Coq Require Import Reals Lra.
From Coquelicot Require Import Coquelicot.
From mathcomp Require Import all_ssreflect all_algebra.
From Verif Require Import Spec.Special Analysis.Improper Analysis.GammaBeta Analysis.GammaFacts Analysis.Gauss.
From Verif Require Import Analysis.RField Spec.Matrices Analysis.Posdef.
Delimit Scope R_scope with Re.

Set Implicit Arguments.
Unset Strict Implicit.
Unset Printing Implicit Defensive.
Import GRing.Theory.
Local Open Scope ring_scope.

Lemma is_vec_int_ext n (f g : 'cV[R]_n -> R) l :
  (forall v, f v = g v) -> is_vec_int f l -> is_vec_int g l.
Proof.
  elim: n f g l => [|n IH] f g l E /=.
  - by rewrite E.
  - move=> [h [H1 H2]]. exists h. split=> // x. apply: IH (H1 x) => v. exact: E.
Qed.

Lemma is_vec_int_scal n (c : R) (f : 'cV[R]_n -> R) l :
  is_vec_int f l -> is_vec_int (fun v => (c * f v)%Re) (c * l)%Re.
Proof.
  elim: n f l => [|n IH] f l /=.
  - by move=> ->.
  - move=> [h [H1 H2]]. exists (fun x => (c * h x)%Re). split.
    + move=> x. exact: IH (H1 x).
    + exact: is_RInt_gen_mult_l.
Qed.

Lemma is_vec_int_unique n (f : 'cV[R]_n -> R) l l' : is_vec_int f l -> is_vec_int f l' -> l = l'.
Proof.
  elim: n f l l' => [|n IH] f l l' /=.
  - by move=> -> ->.
  - move=> [h [H1 H2]] [h' [H1' H2']].
    apply: (is_RInt_gen_unique_on _ _ _ ends_line h l l' H2).
    apply: (is_RInt_gen_ext_on _ _ _ ends_line h' h l' _ H2') => x _. exact: IH (H1' x) (H1 x).
Qed.

Lemma col_mx_split n (m : 'cV[R]_(1 + n)) : m = col_mx (m 0 0)%:M (dsubmx m).
Proof.
  rewrite -[m in LHS]vsubmxK. congr col_mx. apply/matrixP => i j. rewrite !ord1 !mxE mulr1n.
  congr (m _ _). exact: val_inj.
Qed.
Lemma col_mx_sub n (x y : R) (u v : 'cV[R]_n) :
  col_mx x%:M u - col_mx y%:M v = col_mx (x - y)%:M (u - v).
Proof. by rewrite opp_col_mx add_col_mx raddfB. Qed.

Lemma is_vec_int_gauss n (P : 'M[R]_n) (m : 'cV[R]_n) : posdef P ->
  is_vec_int (fun x => exp (- (quad P (x - m)%R / 2))) (sqrt ((2 * PI) ^ n / \det P)).
Proof.
  elim: n P m => [|n IH] P m PD.
  - rewrite /= det_mx00. rewrite (flatmx0 (0 - m)) quad0.
    have ->: (- (0%R / 2))%Re = 0%Re by (rewrite /GRing.zero /=; field).
    rewrite exp_0. rewrite /GRing.one /=. have ->: (1 / 1 = 1)%Re by field. exact: sqrt_1.
  - have PD1 : @posdef (1 + n) P := PD.
    have Hs := schur_pos PD1. have PC := posdef_dr PD1. have HC := det_pos PC. have Hpi := PI_RGT_0.
    set s := schur P in Hs. set C := drsubmx (P : 'M[R]_(1 + n)) in PC HC.
    set K := sqrt ((2 * PI) ^ n / \det C).
    exists (fun x => (K * exp (- (s * (x - m 0%R 0%R) ^ 2) / 2))%Re). split.
    + move=> x.
      set m' : 'cV[R]_n := dsubmx (m : 'cV[R]_(1 + n)) - (x - m 0%R 0%R) *: shift (P : 'M[R]_(1 + n)).
      rewrite Rmult_comm.
      apply: (is_vec_int_ext _ (is_vec_int_scal _ (IH C m' PC))) => v.
      rewrite (col_mx_split (m : 'cV[R]_(1 + n))) col_mx_sub (quad_schur PD1).
      rewrite -exp_plus. f_equal.
      have ->: v - m' = v - dsubmx (m : 'cV[R]_(1 + n)) + (x - m 0%R 0%R) *: shift (P : 'M[R]_(1 + n)).
      { by rewrite /m' opprB addrA addrAC. }
      rewrite -/C -/s.
      have ->: (col_mx (m 0 0)%:M (dsubmx (m : 'cV[R]_(1 + n)))) 0 0 = m 0 0.
      { by rewrite -(col_mx_split (m : 'cV[R]_(1 + n))). }
      rewrite !RminusE. field.
    + have D : sqrt ((2 * PI) ^ n.+1 / \det P) = (K * sqrt (2 * PI / s))%Re.
      { rewrite /K -sqrt_mult_alt.
        - f_equal. rewrite (det_schur PD1) -/s -/C /=. field. split; lra.
        - apply: Rlt_le. apply: Rdiv_lt_0_compat => //. apply: pow_lt. lra. }
      rewrite D. apply: is_RInt_gen_mult_l. exact: is_RInt_gen_gauss_prec.
Qed.
