(** Quadratic forms and positive definite matrices. *)

From Coq Require Import Reals Lra.
From mathcomp Require Import all_ssreflect all_algebra.
From Verif Require Import Analysis.RField Spec.Matrices.
Delimit Scope R_scope with Re.

Set Implicit Arguments.
Unset Strict Implicit.
Unset Printing Implicit Defensive.
Import GRing.Theory.
Local Open Scope ring_scope.

(** mathcomp's operations on R, seen by ring, field and lra *)
Ltac toR := rewrite ?RdivE ?RinvE /GRing.add /GRing.opp /GRing.zero /GRing.mul /GRing.one /=.

Definition bil n (A : 'M[R]_n) (u v : 'cV[R]_n) : R := (u^T *m A *m v) 0 0.

Lemma mx11_tr (M : 'M[R]_1) : M^T 0 0 = M 0 0. Proof. by rewrite mxE. Qed.

Section Forms.
Variable n : nat.
Implicit Types (A B : 'M[R]_n) (u v w : 'cV[R]_n).

Lemma quad_bil A u : quad A u = bil A u u. Proof. by []. Qed.
Lemma bilDl A u v w : bil A (u + v) w = bil A u w + bil A v w.
Proof. by rewrite /bil raddfD /= !mulmxDl mxE. Qed.
Lemma bilDr A u v w : bil A u (v + w) = bil A u v + bil A u w.
Proof. by rewrite /bil mulmxDr mxE. Qed.
Lemma bilZl A c u w : bil A (c *: u) w = c * bil A u w.
Proof. by rewrite /bil linearZ /= -!scalemxAl mxE. Qed.
Lemma bilZr A c u w : bil A u (c *: w) = c * bil A u w.
Proof. by rewrite /bil -!scalemxAr mxE. Qed.
Lemma bilNl A u w : bil A (- u) w = - bil A u w.
Proof. by rewrite -scaleN1r bilZl mulN1r. Qed.
Lemma bilNr A u w : bil A u (- w) = - bil A u w.
Proof. by rewrite -scaleN1r bilZr mulN1r. Qed.
Lemma bil0l A u : bil A 0 u = 0.
Proof. by rewrite /bil trmx0 !mul0mx mxE. Qed.
Lemma bil0r A u : bil A u 0 = 0.
Proof. by rewrite /bil !mulmx0 mxE. Qed.
Lemma bilC A u v : A^T = A -> bil A u v = bil A v u.
Proof. by move=> S; rewrite /bil -mx11_tr !trmx_mul trmxK S mulmxA. Qed.
Lemma bilDA A B u v : bil (A + B) u v = bil A u v + bil B u v.
Proof. by rewrite /bil mulmxDr mulmxDl mxE. Qed.
Lemma bilZA c A u v : bil (c *: A) u v = c * bil A u v.
Proof. by rewrite /bil -scalemxAr -scalemxAl mxE. Qed.
Lemma quad_add A u v : A^T = A -> quad A (u + v) = (quad A u + 2 * bil A u v + quad A v)%Re.
Proof.
  move=> S. rewrite !quad_bil bilDl !bilDr (bilC v u S). toR. ring.
Qed.
Lemma quad_sub A u v : A^T = A -> quad A (u - v) = (quad A u - 2 * bil A u v + quad A v)%Re.
Proof.
  move=> S. rewrite quad_add // bilNr [quad A (- v)]quad_bil bilNl bilNr -quad_bil. toR. ring.
Qed.
Lemma quadZ A c u : quad A (c *: u) = (c ^ 2 * quad A u)%Re.
Proof. rewrite quad_bil bilZl bilZr -quad_bil. toR. ring. Qed.
Lemma quadZA A c u : quad (c *: A) u = (c * quad A u)%Re.
Proof. by rewrite quad_bil bilZA. Qed.
Lemma quadDA A B u : quad (A + B) u = (quad A u + quad B u)%Re.
Proof. by rewrite quad_bil bilDA. Qed.
Lemma quad0 A : quad A 0 = 0. Proof. by rewrite quad_bil bil0l. Qed.
Lemma quadN A u : quad A (- u) = quad A u.
Proof. rewrite -scaleN1r quadZ. toR. ring. Qed.

Lemma quad_nonneg A u : posdef A -> (0 <= quad A u)%Re.
Proof.
  move=> [S P]. have [->|/eqP N] := eqVneq u 0.
  - rewrite quad0. right. reflexivity.
  - left. exact: P.
Qed.

Lemma posdef_unit A : posdef A -> A \in unitmx.
Proof.
  move=> [S P]. rewrite -row_free_unit -kermx_eq0. apply/eqP/matrixP => i j.
  case: (eqVneq (row i (kermx A)) 0) => [E|/eqP N].
  - move/matrixP/(_ 0 j): E. by rewrite !mxE.
  - have Q : quad A (row i (kermx A))^T = 0.
    { rewrite /quad trmxK -row_mul mulmx_ker row0 mul0mx mxE. by []. }
    have N' : (row i (kermx A))^T <> 0.
    { move=> H. apply: N. by rewrite -[LHS]trmxK H trmx0. }
    move: (P _ N'). rewrite Q => H. case: (Rlt_irrefl _ H).
Qed.
Lemma posdef_sym A : posdef A -> A^T = A. Proof. by case. Qed.
Lemma quad_inv A u : posdef A -> quad (invmx A) u = quad A (invmx A *m u).
Proof.
  move=> PD. have U := posdef_unit PD. case: (PD) => S _.
  by rewrite /quad trmx_mul trmx_inv S mulmxKV // mulmxA.
Qed.
Lemma posdef_inv A : posdef A -> posdef (invmx A).
Proof.
  move=> PD. have U := posdef_unit PD. case: (PD) => S P. split; first by rewrite trmx_inv S.
  move=> v N. rewrite quad_inv //. apply: P => H. apply: N.
  by rewrite -[v]mul1mx -(mulmxV U) -mulmxA H mulmx0.
Qed.
Lemma posdef_add A B : posdef A -> B^T = B -> (forall v, (0 <= quad B v)%Re) -> posdef (A + B).
Proof.
  move=> [S P] SB NB. split; first by rewrite raddfD /= S SB.
  move=> v N. rewrite quadDA. move: (P v N) (NB v) => H1 H2. lra.
Qed.
Lemma posdef_addp A B : posdef A -> posdef B -> posdef (A + B).
Proof. move=> PA PB. apply: posdef_add => //. by case: PB. move=> v. exact: quad_nonneg. Qed.
Lemma posdef_scale c A : (0 < c)%Re -> posdef A -> posdef (c *: A).
Proof.
  move=> Hc [S P]. split; first by rewrite linearZ /= S.
  move=> v N. rewrite quadZA. by apply: Rmult_lt_0_compat; auto.
Qed.
End Forms.

Lemma quad1 n (v : 'cV[R]_n) : quad 1%:M v = \sum_i (v i 0 * v i 0).
Proof. rewrite /quad mulmx1 mxE. apply: eq_bigr => i _. by rewrite mxE. Qed.
Lemma sum_nonneg n (f : 'I_n -> R) : (forall i, (0 <= f i)%Re) -> (0 <= \sum_i f i)%Re.
Proof.
  move=> H. apply: (big_ind (fun x => (0 <= x)%Re)) => //.
  - exact: Rle_refl.
  - move=> x y Hx Hy. exact: Rplus_le_le_0_compat.
Qed.
Lemma quad1_nonneg n (v : 'cV[R]_n) : (0 <= quad 1%:M v)%Re.
Proof. rewrite quad1. apply: sum_nonneg => i. exact: Rle_0_sqr. Qed.
Lemma posdef1 n : posdef (1%:M : 'M[R]_n).
Proof.
  split; first by rewrite trmx1.
  move=> v N. case: (quad1_nonneg v) => // E. case: N. apply/matrixP => i j. rewrite ord1 mxE.
  case: (Req_EM_T (v i 0) 0) => // D. exfalso.
  have: (0 < quad 1%:M v)%Re; last by (rewrite -E; move/Rlt_irrefl).
  rewrite quad1 (bigD1 i) //=. apply: Rplus_lt_le_0_compat.
  - exact: Rsqr_pos_lt.
  - apply: (big_ind (fun x => (0 <= x)%Re)) => //.
    + exact: Rle_refl.
    + move=> x y Hx Hy. exact: Rplus_le_le_0_compat.
    + move=> k _. exact: Rle_0_sqr.
Qed.

(** congruence *)
Lemma quad_congr m n (A : 'M[R]_m) (X : 'M[R]_(m, n)) v : quad (X^T *m A *m X) v = quad A (X *m v).
Proof. by rewrite /quad trmx_mul !mulmxA. Qed.
Lemma sym_congr m n (A : 'M[R]_m) (X : 'M[R]_(m, n)) : A^T = A -> (X^T *m A *m X)^T = X^T *m A *m X.
Proof. by move=> S; rewrite !trmx_mul trmxK S !mulmxA. Qed.

(** ** Schur complement of the lower right block *)
Definition schur n (A : 'M[R]_(1 + n)) : R := (A 0%R 0%R - quad (invmx (drsubmx A)) (dlsubmx A))%Re.
Definition shift n (A : 'M[R]_(1 + n)) : 'cV[R]_n := invmx (drsubmx A) *m dlsubmx A.

Section SchurSym.
Variables (n : nat) (A : 'M[R]_(1 + n)).
Hypothesis SA : A^T = A.
Let b : 'cV[R]_n := dlsubmx A.
Let C : 'M[R]_n := drsubmx A.

Lemma ur_dl : ursubmx A = b^T.
Proof. by rewrite /b -[in RHS]SA -trmx_ursub trmxK. Qed.
Lemma ul_00 : ulsubmx A = (A 0%R 0%R)%:M.
Proof.
  apply/matrixP => i j. rewrite !ord1 !mxE /= mulr1n. congr (A _ _); apply: val_inj; reflexivity.
Qed.
Lemma block_A : A = block_mx (A 0%R 0%R)%:M b^T b C.
Proof. by rewrite -ul_00 -ur_dl submxK. Qed.

Lemma quad_block (x : R) (v : 'cV[R]_n) :
  quad A (col_mx x%:M v) = (A 0%R 0%R * x ^ 2 + 2 * (x * (b^T *m v) 0%R 0%R) + quad C v)%Re.
Proof.
  rewrite {1}block_A /quad tr_col_mx mul_row_block mul_row_col tr_scalar_mx.
  rewrite !mul_scalar_mx !mul_mx_scalar !mulmxDl.
  have E: (v^T *m b) 0%R 0%R = (b^T *m v) 0%R 0%R by rewrite -mx11_tr trmx_mul trmxK.
  rewrite -scalemxAl scalerDr.
  have D (M N : 'M[R]_1) : (M + N) 0 0 = M 0 0 + N 0 0 by rewrite mxE.
  have Z c (M : 'M[R]_1) : (c *: M) 0 0 = c * M 0 0 by rewrite mxE.
  rewrite !D !Z E -/(quad C v). move: ((b^T *m v) 0 0) (quad C v) => d q.
  rewrite !mxE /= mulr1n. toR. ring.
Qed.

Hypothesis PC : posdef (drsubmx A).
Lemma quad_schur_sym (x : R) (v : 'cV[R]_n) :
  quad A (col_mx x%:M v) = (schur A * x ^ 2 + quad C (v + x *: shift A)%R)%Re.
Proof.
  have U := posdef_unit PC. case: (PC) => SC _.
  rewrite quad_block quad_add // quadZ bilZr /schur -/b -/C.
  have ->: bil C v (shift A) = (b^T *m v) 0%R 0%R.
  { rewrite /bil /shift -/C -/b -mulmxA (mulmxA C) mulmxV // mul1mx. by rewrite -mx11_tr trmx_mul trmxK. }
  rewrite (quad_inv b PC) -/(shift A) -/C. toR. ring.
Qed.
Lemma det_schur_sym : \det A = (schur A * \det C)%Re.
Proof.
  have U := posdef_unit PC. case: (PC) => SC _.
  pose L : 'M[R]_(1 + n) := block_mx 1%:M (- (b^T *m invmx C)) 0 1%:M.
  have DL : \det L = 1 by rewrite det_ublock !det1 mulr1.
  have E : L *m A = block_mx (schur A)%:M 0 b C.
  { rewrite {1}block_A mulmx_block. rewrite !mul1mx !mul0mx !add0r. congr block_mx.
    - rewrite mulNmx. apply/matrixP => i j. rewrite !ord1. rewrite [LHS]mxE [X in _ + X]mxE.
      rewrite -/(quad (invmx C) b) !mxE /= !mulr1n. reflexivity.
    - by rewrite mulNmx -mulmxA mulVmx // mulmx1 addrN. }
  have: \det (L *m A) = \det A by rewrite det_mulmx DL mul1r.
  move=> <-. rewrite E det_lblock det_scalar1. reflexivity.
Qed.
Lemma posdef_schur : (0 < schur A)%Re -> posdef A.
Proof.
  move=> Hs. split=> // v N. rewrite -[v](@vsubmxK _ 1 n 1).
  have E : usubmx (v : 'cV[R]_(1 + n)) = (v 0 0)%:M.
  { apply/matrixP => i j. rewrite !ord1 !mxE /= mulr1n. congr (v _ _). exact: val_inj. }
  rewrite E quad_schur_sym. set x := v 0 0. set w := dsubmx _ + _.
  have Hq := quad_nonneg w PC. have Hx := pow2_ge_0 x.
  case: (Req_EM_T x 0) => [X0|X0].
  - have Nw : w <> 0.
    { move=> W. apply: N. rewrite -[v](@vsubmxK _ 1 n 1) E -/x. rewrite -/x in X0.
      have Z : dsubmx (v : 'cV[R]_(1 + n)) = 0.
      { move: W. rewrite /w X0. rewrite -[IZR 0]/(0%R : R) scale0r addr0. by []. }
      rewrite Z X0. apply/matrixP => i j. rewrite !mxE. by case: splitP => k _; rewrite !mxE // mul0rn. }
    case: PC => _ P. rewrite X0. have ->: (schur A * 0 ^ 2 = 0)%Re by ring.
    rewrite Rplus_0_l. exact: P.
  - have H : (0 < x ^ 2)%Re by rewrite -Rsqr_pow2; exact: Rsqr_pos_lt. apply: Rplus_lt_le_0_compat => //.
    exact: Rmult_lt_0_compat.
Qed.
End SchurSym.

Section Schur.
Variables (n : nat) (A : 'M[R]_(1 + n)).
Hypothesis PD : posdef A.
Let SA : A^T = A := posdef_sym PD.
Lemma posdef_dr : posdef (drsubmx A).
Proof.
  case: PD => S P. split.
  - by rewrite trmx_drsub S.
  - move=> v N. have := P (col_mx (0%:M) v). rewrite quad_block //.
    have E: (A 0%R 0%R * 0 ^ 2 + 2 * (0 * ((dlsubmx A)^T *m v) 0%R 0%R) + quad (drsubmx A) v = quad (drsubmx A) v)%Re by ring.
    rewrite /GRing.zero /= in E *. rewrite E. apply => H. apply: N.
    move/(f_equal (@dsubmx _ 1 n 1)): H. rewrite col_mxKd => ->. apply/matrixP => i j. by rewrite !mxE.
Qed.
Lemma quad_schur (x : R) (v : 'cV[R]_n) :
  quad A (col_mx x%:M v) = (schur A * x ^ 2 + quad (drsubmx A) (v + x *: shift A)%R)%Re.
Proof. apply: quad_schur_sym => //. exact: posdef_dr. Qed.
Lemma schur_pos : (0 < schur A)%Re.
Proof.
  case: (PD) => _ P.
  have H : (0 < quad A (col_mx 1%:M (- shift A)))%Re.
  { apply: P => E. move/(f_equal (@usubmx _ 1 n 1)): E. rewrite col_mxKu => /matrixP/(_ 0 0).
    rewrite !mxE /= => E. exact: (R1_neq_R0 E). }
  rewrite quad_schur scale1r addNr quad0 in H. move: H. toR. move=> H. lra.
Qed.
Lemma det_schur : \det A = (schur A * \det (drsubmx A))%Re.
Proof. apply: det_schur_sym => //. exact: posdef_dr. Qed.
End Schur.

(** a block matrix with positive definite lower right block *)
Section Block.
Variables (n : nat) (a : R) (b : 'cV[R]_n) (C : 'M[R]_n).
Hypothesis PC : posdef C.
Definition blk : 'M[R]_(1 + n) := block_mx a%:M b^T b C.
Lemma blk_sym : blk^T = blk.
Proof. by rewrite /blk tr_block_mx tr_scalar_mx trmxK (posdef_sym PC). Qed.
Lemma blk_dr : drsubmx blk = C. Proof. exact: block_mxKdr. Qed.
Lemma blk_dl : dlsubmx blk = b. Proof. exact: block_mxKdl. Qed.
Lemma blk_00 : blk 0%R 0%R = a.
Proof.
  have := ul_00 blk. rewrite /blk block_mxKul => /matrixP/(_ 0 0). by rewrite !mxE /= !mulr1n => <-.
Qed.
Lemma blk_schur : schur blk = (a - quad (invmx C) b)%Re.
Proof. by rewrite /schur blk_dr blk_dl blk_00. Qed.
Lemma blk_posdef : (quad (invmx C) b < a)%Re -> posdef blk.
Proof. move=> H. apply: posdef_schur; rewrite ?blk_dr ?blk_schur //; [exact: blk_sym | lra]. Qed.
Lemma blk_det : \det blk = ((a - quad (invmx C) b) * \det C)%Re.
Proof. by rewrite det_schur_sym ?blk_dr ?blk_schur //; exact: blk_sym. Qed.

Lemma blk_inv (s := (a - quad (invmx C) b)%Re) (u := invmx C *m b) : (0 < s)%Re ->
  invmx blk = block_mx (/ s)%Re%:M (- ((/ s)%Re *: u^T)) (- ((/ s)%Re *: u)) (invmx C + (/ s)%Re *: (u *m u^T)).
Proof.
  move=> Hs. have PB : posdef blk by apply: blk_posdef; rewrite /s in Hs; lra.
  have U := posdef_unit PB. have UC := posdef_unit PC.
  rewrite -[RHS](mulKmx U). suff ->: blk *m block_mx (/ s)%Re%:M (- ((/ s)%Re *: u^T)) (- ((/ s)%Re *: u)) (invmx C + (/ s)%Re *: (u *m u^T)) = 1%:M by rewrite mulmx1.
  have Cu : C *m u = b by rewrite /u mulmxA mulmxV // mul1mx.
  have bu : b^T *m u = (quad (invmx C) b)%:M.
  { rewrite /u mulmxA. apply/matrixP => i j. rewrite !ord1 [RHS]mxE /= mulr1n. by []. }
  have buT : b^T *m invmx C = u^T by rewrite /u trmx_mul trmx_inv (posdef_sym PC).
  have Ea : (a * / s - quad (invmx C) b * / s = 1)%Re by rewrite -Rmult_minus_distr_r -/s Rinv_r //; lra.
  rewrite /blk mulmx_block [RHS]scalar_mx_block. congr block_mx.
  - rewrite mulmxN -scalemxAr bu -scalar_mxM scale_scalar_mx -scalemx1 -[X in _ - X]scalemx1 -scalerBl.
    have ->: a * (/ s)%Re - (/ s)%Re * quad (invmx C) b = 1 by move: Ea; toR; rewrite Rmult_comm; move=> H; lra.
    by rewrite scale1r.
  - rewrite mulmxDr buT -scalemxAr mulmxA bu !mul_scalar_mx scalerN !scalerA.
    rewrite -[X in _ + (X + _)]scale1r -scaleNr -!scalerDl.
    have ->: - (a * (/ s)%Re) + (1 + (/ s)%Re * quad (invmx C) b) = 0 by move: Ea; toR; move=> H; lra.
    by rewrite scale0r.
  - by rewrite mulmxN -scalemxAr Cu mul_mx_scalar subrr.
  - by rewrite mulmxDr mulmxV // -scalemxAr mulmxA Cu mulmxN -scalemxAr addrCA addNr addr0.
Qed.
End Block.

Lemma det_pos n (A : 'M[R]_n) : posdef A -> (0 < \det A)%Re.
Proof.
  elim: n A => [|n IH] A PD.
  - rewrite det_mx00. exact: Rlt_0_1.
  - rewrite (@det_schur n A PD). apply: Rmult_lt_0_compat.
    + exact: (@schur_pos n A PD).
    + apply: IH. exact: (@posdef_dr n A PD).
Qed.

(** which symmetric block matrices are positive definite *)
Lemma posdef_block_iff n (a : R) (b : 'cV[R]_n) (C : 'M[R]_n) :
  posdef (block_mx a%:M b^T b C) <-> posdef C /\ (quad (invmx C) b < a)%Re.
Proof.
  split=> [H|[PC H]]; last exact: (blk_posdef PC H).
  have PC := posdef_dr H. rewrite block_mxKdr in PC. split=> //.
  have := schur_pos H. rewrite -[block_mx _ _ _ _]/(blk a b C) blk_schur. lra.
Qed.
