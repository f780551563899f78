(** Means and covariances of densities on R^n that depend on a quadratic form. *)

From Coq Require Import Reals Lra.
From Coquelicot Require Import Coquelicot.
From mathcomp Require Import all_ssreflect all_algebra.
From Verif Require Import Spec.Special Analysis.Improper Analysis.RealAux Analysis.GammaBeta Analysis.GammaFacts Analysis.Gauss
  Analysis.TKernel Analysis.KernelMoments.
From Verif Require Import Analysis.RField Spec.Matrices Analysis.Posdef Analysis.MultiGauss Analysis.Regression Analysis.InvWishart.
Delimit Scope R_scope with Re.

Set Implicit Arguments.
Unset Strict Implicit.
Unset Printing Implicit Defensive.
Import GRing.Theory.
Local Open Scope ring_scope.

Lemma is_vec_int_plus n (f g : 'cV[R]_n -> R) l k : is_vec_int f l -> is_vec_int g k -> is_vec_int (fun v => (f v + g v)%Re) (l + k)%Re.
Proof.
  elim: n f g l k => [|n IH] f g l k /=.
  - by move=> -> ->.
  - move=> [h [H1 H2]] [h' [H1' H2']]. exists (fun x => (h x + h' x)%Re). split.
    + move=> x. exact: IH (H1 x) (H1' x).
    + exact: (is_RInt_gen_plus_R _ _ _ _ _ _ H2 H2').
Qed.

Definition dot n (w v : 'cV[R]_n) : R := (w^T *m v) 0 0.
Lemma dotC n (w v : 'cV[R]_n) : dot w v = dot v w.
Proof. by rewrite /dot -mx11_tr trmx_mul trmxK. Qed.
Lemma dotD n (w u v : 'cV[R]_n) : dot w (u + v) = (dot w u + dot w v)%Re.
Proof. by rewrite /dot mulmxDr mxE. Qed.
Lemma dotN n (w v : 'cV[R]_n) : dot w (- v) = (- dot w v)%Re.
Proof. by rewrite /dot mulmxN mxE. Qed.
Lemma dotZ n (w v : 'cV[R]_n) c : dot w (c *: v) = (c * dot w v)%Re.
Proof. by rewrite /dot -scalemxAr mxE. Qed.
Lemma dot_col n (x y : R) (u v : 'cV[R]_n) : dot (col_mx x%:M u) (col_mx y%:M v) = (x * y + dot u v)%Re.
Proof.
  rewrite /dot tr_col_mx mul_row_col tr_scalar_mx mul_scalar_mx mxE. congr (_ + _)%Re. by rewrite !mxE mulr1n.
Qed.

(** The inverse and the Schur complement *)
Lemma quad_invmx n (P : 'M[R]_(1 + n)) (x : R) (w : 'cV[R]_n) : posdef P ->
  quad (invmx P) (col_mx x%:M w) = ((x - dot w (shift P)) ^ 2 / schur P + quad (invmx (drsubmx P)) w)%Re.
Proof.
  move=> PP. have PC := posdef_dr PP. have Hs := schur_pos PP.
  have EP := block_A (posdef_sym PP). rewrite {1}EP.
  have -> : block_mx (P 0%R 0%R)%:M (dlsubmx P)^T (dlsubmx P) (drsubmx P) = blk (P 0%R 0%R) (dlsubmx P) (drsubmx P) by [].
  rewrite (blk_inv PC Hs) -/(schur P) -/(shift P).
  set u := shift P. set s := schur P. set e := col_mx (1%:M : 'M[R]_1) (- u).
  have ->: block_mx (/ s)%Re%:M (- ((/ s)%Re *: u^T)) (- ((/ s)%Re *: u)) (invmx (drsubmx P) + (/ s)%Re *: (u *m u^T)) =
    (/ s)%Re *: (e *m e^T) + block_mx 0 0 0 (invmx (drsubmx P)).
  { rewrite /e tr_col_mx mul_col_row trmx1 !mul1mx mulmx1 linearN /= mulmxN mulNmx opprK.
    rewrite scale_block_mx add_block_mx !addr0 scalemx1 !scalerN. by rewrite [X in block_mx _ _ _ X]addrC. }
  rewrite quadDA quadZA. congr (_ + _)%Re.
  - have -> : quad (e *m e^T) (col_mx x%:M w) = ((x - dot w u) ^ 2)%Re.
    { have -> : quad (e *m e^T) (col_mx x%:M w) = (dot (col_mx x%:M w) e * dot e (col_mx x%:M w))%Re.
      { rewrite /quad /dot mulmxA -mulmxA. by rewrite [X in (X *m _) 0 0]mx11_scalar mul_scalar_mx mxE. }
      rewrite (dotC e). rewrite /e dot_col dotN. toR. ring. }
    rewrite /Rdiv. exact: Rmult_comm.
  - rewrite /quad tr_col_mx mul_row_block !mulmx0 !addr0 !add0r mul_row_col mul0mx add0r. by [].
Qed.

Lemma line_scal (c : R) (f : R -> R) l : is_RInt_gen f (Rbar_locally m_infty) (Rbar_locally p_infty) l ->
  is_RInt_gen (fun x => (c * f x)%Re) (Rbar_locally m_infty) (Rbar_locally p_infty) (c * l)%Re.
Proof. exact: is_RInt_gen_mult_l. Qed.
Arguments line_scal c {f l} _.
Lemma line_plus (f g : R -> R) k l : is_RInt_gen f (Rbar_locally m_infty) (Rbar_locally p_infty) k ->
  is_RInt_gen g (Rbar_locally m_infty) (Rbar_locally p_infty) l ->
  is_RInt_gen (fun x => (f x + g x)%Re) (Rbar_locally m_infty) (Rbar_locally p_infty) (k + l)%Re.
Proof. move=> H1 H2. exact: (is_RInt_gen_plus_R _ _ _ _ _ _ H1 H2). Qed.

(** [F j q] stands for the integral over R^j of [F 0 (q + |y|^2)], [G j q] for the
    integral with one coordinate squared. *)
Section Radial.
Variables (N : nat) (F G : nat -> R -> R) (Q : R -> Prop).
Hypothesis HQ : forall q z, Q q -> (0 <= z)%Re -> Q (q + z)%Re.
Hypothesis F0 : forall j q s m, (j < N)%N -> Q q -> (0 < s)%Re ->
  is_RInt_gen (fun x => F j (q + s * (x - m) ^ 2)%Re) (Rbar_locally m_infty) (Rbar_locally p_infty) (F j.+1 q / sqrt s)%Re.
Hypothesis F1 : forall j q s m, (j < N)%N -> Q q -> (0 < s)%Re ->
  is_RInt_gen (fun x => ((x - m) * F j (q + s * (x - m) ^ 2))%Re) (Rbar_locally m_infty) (Rbar_locally p_infty) 0%Re.

Section Step.
Variables (n : nat) (P : 'M[R]_(1 + n)) (m : 'cV[R]_(1 + n)) (x : R).
Hypothesis PD : posdef P.
Let m' : 'cV[R]_n := dsubmx m - (x - m 0%R 0%R) *: shift P.
Lemma quad_step v : quad P (col_mx x%:M v - m) = (schur P * (x - m 0%R 0%R) ^ 2 + quad (drsubmx P) (v - m')%R)%Re.
Proof.
  rewrite {1}(col_mx_split m) col_mx_sub (quad_schur PD).
  have ->: v - m' = v - dsubmx m + (x - m 0%R 0%R) *: shift P by rewrite /m' opprB addrA addrAC.
  by rewrite !RminusE.
Qed.
Lemma dot_step w v : dot w (col_mx x%:M v - m) =
  ((x - m 0%R 0%R) * (w 0%R 0%R - dot (dsubmx w) (shift P)) + dot (dsubmx w) (v - m')%R)%Re.
Proof.
  rewrite {1}(col_mx_split m) {1}(col_mx_split w) col_mx_sub dot_col.
  have ->: v - m' = v - dsubmx m + (x - m 0%R 0%R) *: shift P by rewrite /m' opprB addrA addrAC.
  rewrite (dotD _ (v - dsubmx m)) dotZ. move: (dot (dsubmx w) (v - dsubmx m)) => d. toR. ring.
Qed.
End Step.

Lemma radial_mean n (P : 'M[R]_n) (m w : 'cV[R]_n) c q : (n <= N)%N -> posdef P -> Q q ->
  is_vec_int (fun x => ((c + dot w (x - m)) * F 0 (q + quad P (x - m)%R))%Re) (c * F n q / sqrt (\det P))%Re.
Proof.
  elim: n P m w c q => [|n IH] P m w c q Hn PD Hq.
  - rewrite /= det_mx00 (flatmx0 (0 - m)) quad0 RoneE sqrt_1 /dot mulmx0 mxE RzeroE !Rplus_0_r. field.
  - have PD1 : @posdef (1 + n) P := PD.
    have Hs := schur_pos PD1. have PC := posdef_dr PD1. have HC := det_pos PC.
    set s := schur (P : 'M[R]_(1 + n)) in Hs. set C := drsubmx (P : 'M[R]_(1 + n)) in PC HC.
    set be := (w 0%R 0%R - dot (dsubmx (w : 'cV[R]_(1 + n))) (shift (P : 'M[R]_(1 + n))))%Re.
    have Hk : (0 < sqrt (\det C))%Re by exact: sqrt_lt_R0. have Hr : (0 < sqrt s)%Re by exact: sqrt_lt_R0.
    exists (fun x => ((c + (x - m 0%R 0%R) * be) * F n (q + s * (x - m 0%R 0%R) ^ 2) / sqrt (\det C))%Re). split.
    + move=> x. have Hq' : Q (q + s * (x - m 0%R 0%R) ^ 2)%Re.
      { apply: HQ => //. apply: Rmult_le_pos; [lra | exact: pow2_ge_0]. }
      apply: (is_vec_int_ext _ (IH C (dsubmx (m : 'cV[R]_(1 + n)) - (x - m 0%R 0%R) *: shift (P : 'M[R]_(1 + n)))
        (dsubmx (w : 'cV[R]_(1 + n))) (c + (x - m 0%R 0%R) * be)%Re _ (ltnW Hn) PC Hq')) => v.
      rewrite (quad_step (m : 'cV[R]_(1 + n)) x PD1) (dot_step P (m : 'cV[R]_(1 + n)) x).
      rewrite -/C -/s -/be. congr (_ * _)%Re; first by rewrite Rplus_assoc. by rewrite Rplus_assoc.
    + have D : sqrt (\det P) = (sqrt s * sqrt (\det C))%Re.
      { rewrite (det_schur PD1) -/s -/C. apply: sqrt_mult_alt. lra. }
      rewrite D.
      have H0 := line_scal (c / sqrt (\det C))%Re (F0 (m 0%R 0%R) Hn Hq Hs).
      have H1 := line_scal (be / sqrt (\det C))%Re (F1 (m 0%R 0%R) Hn Hq Hs).
      have H := line_plus H0 H1.
      have E : (c / sqrt (\det C) * (F n.+1 q / sqrt s) + be / sqrt (\det C) * 0 = c * F n.+1 q / (sqrt s * sqrt (\det C)))%Re.
      { field. split; lra. }
      rewrite E in H. apply: (is_RInt_gen_ext_on _ _ _ ends_line _ _ _ _ H) => x _. field. lra.
Qed.

Hypothesis G0 : forall j q s m, (j < N)%N -> Q q -> (0 < s)%Re ->
  is_RInt_gen (fun x => G j (q + s * (x - m) ^ 2)%Re) (Rbar_locally m_infty) (Rbar_locally p_infty) (G j.+1 q / sqrt s)%Re.
Hypothesis F2 : forall j q s m, (j < N)%N -> Q q -> (0 < s)%Re ->
  is_RInt_gen (fun x => ((x - m) ^ 2 * F j (q + s * (x - m) ^ 2))%Re) (Rbar_locally m_infty) (Rbar_locally p_infty) (G j.+1 q / (s * sqrt s))%Re.

Lemma radial_square n (P : 'M[R]_n) (m w : 'cV[R]_n) c q : (n <= N)%N -> posdef P -> Q q ->
  is_vec_int (fun x => ((c + dot w (x - m)) ^ 2 * F 0 (q + quad P (x - m)%R))%Re)
    ((c ^ 2 * F n q + quad (invmx P) w * G n q) / sqrt (\det P))%Re.
Proof.
  elim: n P m w c q => [|n IH] P m w c q Hn PD Hq.
  - rewrite /= det_mx00 (flatmx0 (0 - m)) (flatmx0 w) !quad0 RoneE sqrt_1 /dot mulmx0 mxE RzeroE !Rplus_0_r. field.
  - have PD1 : @posdef (1 + n) P := PD.
    have Hs := schur_pos PD1. have PC := posdef_dr PD1. have HC := det_pos PC.
    have -> : quad (invmx P) w = ((w 0%R 0%R - dot (dsubmx (w : 'cV[R]_(1 + n))) (shift (P : 'M[R]_(1 + n)))) ^ 2 / schur (P : 'M[R]_(1 + n))
      + quad (invmx (drsubmx (P : 'M[R]_(1 + n)))) (dsubmx (w : 'cV[R]_(1 + n))))%Re.
    { rewrite {1}(col_mx_split (w : 'cV[R]_(1 + n))). exact: (quad_invmx _ _ PD1). }
    set s := schur (P : 'M[R]_(1 + n)) in Hs *. set C := drsubmx (P : 'M[R]_(1 + n)) in PC HC *.
    set be := (w 0%R 0%R - dot (dsubmx (w : 'cV[R]_(1 + n))) (shift (P : 'M[R]_(1 + n))))%Re.
    set w' := dsubmx (w : 'cV[R]_(1 + n)).
    have Hk : (0 < sqrt (\det C))%Re by exact: sqrt_lt_R0. have Hr : (0 < sqrt s)%Re by exact: sqrt_lt_R0.
    exists (fun x => (((c + (x - m 0%R 0%R) * be) ^ 2 * F n (q + s * (x - m 0%R 0%R) ^ 2)
      + quad (invmx C) w' * G n (q + s * (x - m 0%R 0%R) ^ 2)) / sqrt (\det C))%Re). split.
    + move=> x. have Hq' : Q (q + s * (x - m 0%R 0%R) ^ 2)%Re.
      { apply: HQ => //. apply: Rmult_le_pos; [lra | exact: pow2_ge_0]. }
      apply: (is_vec_int_ext _ (IH C (dsubmx (m : 'cV[R]_(1 + n)) - (x - m 0%R 0%R) *: shift (P : 'M[R]_(1 + n)))
        w' (c + (x - m 0%R 0%R) * be)%Re _ (ltnW Hn) PC Hq')) => v.
      rewrite (quad_step (m : 'cV[R]_(1 + n)) x PD1) (dot_step P (m : 'cV[R]_(1 + n)) x).
      rewrite -/C -/s -/be -/w'. congr (_ * _)%Re; first by rewrite Rplus_assoc. by rewrite Rplus_assoc.
    + have D : sqrt (\det P) = (sqrt s * sqrt (\det C))%Re.
      { rewrite (det_schur PD1) -/s -/C. apply: sqrt_mult_alt. lra. }
      rewrite D.
      have H0 := line_scal (c ^ 2 / sqrt (\det C))%Re (F0 (m 0%R 0%R) Hn Hq Hs).
      have H1 := line_scal (2 * c * be / sqrt (\det C))%Re (F1 (m 0%R 0%R) Hn Hq Hs).
      have H2 := line_scal (be ^ 2 / sqrt (\det C))%Re (F2 (m 0%R 0%R) Hn Hq Hs).
      have H3 := line_scal (quad (invmx C) w' / sqrt (\det C))%Re (G0 (m 0%R 0%R) Hn Hq Hs).
      have H := line_plus (line_plus H0 H1) (line_plus H2 H3).
      move: H. set qC := quad (invmx C) w'. move=> H.
      match type of H with is_RInt_gen _ _ _ ?v => have E : v = ((c ^ 2 * F n.+1 q + (be ^ 2 / s + qC) * G n.+1 q) / (sqrt s * sqrt (\det C)))%Re end.
      { field. repeat split; lra. }
      rewrite E in H. apply: (is_RInt_gen_ext_on _ _ _ ends_line _ _ _ _ H) => x _. field. lra.
Qed.
End Radial.

(** ** the multivariate normal *)
Lemma gauss_F0 j q s m : (0 < s)%Re ->
  is_RInt_gen (fun x => (sqrt (2 * PI) ^ j * exp (- (q + s * (x - m) ^ 2) / 2))%Re) (Rbar_locally m_infty) (Rbar_locally p_infty)
    (sqrt (2 * PI) ^ j.+1 * exp (- q / 2) / sqrt s)%Re.
Proof.
  move=> Hs. have H := line_scal (sqrt (2 * PI) ^ j)%Re (gauss_moment0 s m q Hs).
  have Hr : (0 < sqrt s)%Re by exact: sqrt_lt_R0.
  have -> : (sqrt (2 * PI) ^ j.+1 * exp (- q / 2) / sqrt s = sqrt (2 * PI) ^ j * (sqrt (2 * PI) * exp (- q / 2) / sqrt s))%Re by simpl; field; lra.
  exact: H.
Qed.

Lemma gauss_square n (P : 'M[R]_n) (m w : 'cV[R]_n) c : posdef P ->
  is_vec_int (fun x => ((c + dot w (x - m)) ^ 2 * exp (- (quad P (x - m)%R / 2)))%Re)
    ((c ^ 2 + quad (invmx P) w) * sqrt ((2 * PI) ^ n / \det P))%Re.
Proof.
  move=> PD. have Hpi := PI_RGT_0. have HD := det_pos PD.
  have := @radial_square n (fun j q => sqrt (2 * PI) ^ j * exp (- q / 2))%Re (fun j q => sqrt (2 * PI) ^ j * exp (- q / 2))%Re (fun _ => True)
    (fun _ _ _ _ => I) _ _ _ _ n P m w c 0%Re (leqnn n) PD I.
  have -> : ((c ^ 2 * (sqrt (2 * PI) ^ n * exp (- 0 / 2)) + quad (invmx P) w * (sqrt (2 * PI) ^ n * exp (- 0 / 2))) / sqrt (\det P))%Re
    = ((c ^ 2 + quad (invmx P) w) * sqrt ((2 * PI) ^ n / \det P))%Re.
  { rewrite sqrt_div_alt // sqrt_pow; last lra. have -> : (- 0 / 2 = 0)%Re by field. rewrite exp_0. field. exact: sqrt_nz. }
  move=> H. apply: is_vec_int_ext (H _ _ _ _) => [x|j q s mm _ _ Hs|j q s mm _ _ Hs|j q s mm _ _ Hs|j q s mm _ _ Hs].
  - rewrite pow_O Rmult_1_l. congr (_ * exp _)%Re. field.
  - exact: gauss_F0.
  - have := line_scal (sqrt (2 * PI) ^ j)%Re (gauss_moment1 s mm q Hs). rewrite Rmult_0_r => H1.
    apply: (is_RInt_gen_ext_on _ _ _ ends_line _ _ _ _ H1) => x _. ring.
  - exact: gauss_F0.
  - have H1 := line_scal (sqrt (2 * PI) ^ j)%Re (gauss_moment2 s mm q Hs).
    have Hr : (0 < sqrt s)%Re by exact: sqrt_lt_R0.
    have -> : (sqrt (2 * PI) ^ j.+1 * exp (- q / 2) / (s * sqrt s) = sqrt (2 * PI) ^ j * (sqrt (2 * PI) * exp (- q / 2) / (s * sqrt s)))%Re by simpl; field; lra.
    apply: (is_RInt_gen_ext_on _ _ _ ends_line _ _ _ _ H1) => x _. ring.
Qed.
Lemma gauss_mean n (P : 'M[R]_n) (m w : 'cV[R]_n) c : posdef P ->
  is_vec_int (fun x => ((c + dot w (x - m)) * exp (- (quad P (x - m)%R / 2)))%Re) (c * sqrt ((2 * PI) ^ n / \det P))%Re.
Proof.
  move=> PD. have Hpi := PI_RGT_0. have HD := det_pos PD.
  have := @radial_mean n (fun j q => sqrt (2 * PI) ^ j * exp (- q / 2))%Re (fun _ => True)
    (fun _ _ _ _ => I) _ _ n P m w c 0%Re (leqnn n) PD I.
  have -> : (c * (sqrt (2 * PI) ^ n * exp (- 0 / 2)) / sqrt (\det P))%Re = (c * sqrt ((2 * PI) ^ n / \det P))%Re.
  { rewrite sqrt_div_alt // sqrt_pow; last lra. have -> : (- 0 / 2 = 0)%Re by field. rewrite exp_0. field. exact: sqrt_nz. }
  move=> H. apply: is_vec_int_ext (H _ _) => [x|j q s mm _ _ Hs|j q s mm _ _ Hs].
  - rewrite pow_O Rmult_1_l. congr (_ * exp _)%Re. field.
  - exact: gauss_F0.
  - have := line_scal (sqrt (2 * PI) ^ j)%Re (gauss_moment1 s mm q Hs). rewrite Rmult_0_r => H1.
    apply: (is_RInt_gen_ext_on _ _ _ ends_line _ _ _ _ H1) => x _. ring.
Qed.

(** ** the multivariate t *)
Definition tF (al : R) (j : nat) (q : R) : R :=
  (Rpower PI (INR j / 2) * Gamma_fun (al - INR j / 2) / Gamma_fun al * Rpower q (- (al - INR j / 2)))%Re.
Definition tG (al : R) (j : nat) (q : R) : R :=
  (Rpower PI (INR j / 2) * Gamma_fun (al - 1 - INR j / 2) / (2 * Gamma_fun al) * Rpower q (- (al - 1 - INR j / 2)))%Re.

Lemma PI_step j : Rpower PI (INR j.+1 / 2) = (Rpower PI (INR j / 2) * sqrt PI)%Re.
Proof.
  rewrite S_INR. have -> : ((INR j + 1) / 2 = INR j / 2 + / 2)%Re by field. by rewrite Rpower_plus Rpower_sqrt //; exact: PI_RGT_0.
Qed.
Lemma half_step al j : (al - INR j.+1 / 2 = al - INR j / 2 - / 2)%Re.
Proof. rewrite S_INR. field. Qed.

Lemma tF_0 al j q s m : (0 < q)%Re -> (0 < s)%Re -> (/ 2 < al - INR j / 2)%Re -> (0 < al)%Re ->
  is_RInt_gen (fun x => tF al j (q + s * (x - m) ^ 2)) (Rbar_locally m_infty) (Rbar_locally p_infty) (tF al j.+1 q / sqrt s)%Re.
Proof.
  move=> Hq Hs Ha Hal. have H := line_scal (Rpower PI (INR j / 2) * Gamma_fun (al - INR j / 2) / Gamma_fun al)%Re (is_RInt_gen_t_quad q s m _ Hq Hs Ha).
  have -> : (tF al j.+1 q / sqrt s = Rpower PI (INR j / 2) * Gamma_fun (al - INR j / 2) / Gamma_fun al *
      (sqrt PI * Gamma_fun (al - INR j / 2 - / 2) / Gamma_fun (al - INR j / 2) * Rpower q (/ 2 - (al - INR j / 2)) / sqrt s))%Re.
  { rewrite /tF PI_step half_step. have -> : (- (al - INR j / 2 - / 2) = / 2 - (al - INR j / 2))%Re by ring.
    field. repeat split; first [exact: sqrt_nz | apply: Gamma_nz; lra]. }
  exact: H.
Qed.
Lemma tF_1 al j q s m : (0 < q)%Re -> (0 < s)%Re -> (1 < al - INR j / 2)%Re ->
  is_RInt_gen (fun x => ((x - m) * tF al j (q + s * (x - m) ^ 2))%Re) (Rbar_locally m_infty) (Rbar_locally p_infty) 0%Re.
Proof.
  move=> Hq Hs Ha. have := line_scal (Rpower PI (INR j / 2) * Gamma_fun (al - INR j / 2) / Gamma_fun al)%Re (t_moment1 q s m _ Hq Hs Ha).
  rewrite Rmult_0_r => H. apply: (is_RInt_gen_ext_on _ _ _ ends_line _ _ _ _ H) => x _. rewrite /tF. ring.
Qed.
Lemma tG_0 al j q s m : (0 < q)%Re -> (0 < s)%Re -> (/ 2 < al - 1 - INR j / 2)%Re -> (0 < al)%Re ->
  is_RInt_gen (fun x => tG al j (q + s * (x - m) ^ 2)) (Rbar_locally m_infty) (Rbar_locally p_infty) (tG al j.+1 q / sqrt s)%Re.
Proof.
  move=> Hq Hs Ha Hal. have H := line_scal (Rpower PI (INR j / 2) * Gamma_fun (al - 1 - INR j / 2) / (2 * Gamma_fun al))%Re (is_RInt_gen_t_quad q s m _ Hq Hs Ha).
  have -> : (tG al j.+1 q / sqrt s = Rpower PI (INR j / 2) * Gamma_fun (al - 1 - INR j / 2) / (2 * Gamma_fun al) *
      (sqrt PI * Gamma_fun (al - 1 - INR j / 2 - / 2) / Gamma_fun (al - 1 - INR j / 2) * Rpower q (/ 2 - (al - 1 - INR j / 2)) / sqrt s))%Re.
  { rewrite /tG PI_step half_step. have -> : (- (al - 1 - INR j / 2 - / 2) = / 2 - (al - 1 - INR j / 2))%Re by ring.
    field. repeat split; first [exact: sqrt_nz | apply: Gamma_nz; lra]. }
  exact: H.
Qed.
Lemma tF_2 al j q s m : (0 < q)%Re -> (0 < s)%Re -> (3 / 2 < al - INR j / 2)%Re -> (0 < al)%Re ->
  is_RInt_gen (fun x => ((x - m) ^ 2 * tF al j (q + s * (x - m) ^ 2))%Re) (Rbar_locally m_infty) (Rbar_locally p_infty) (tG al j.+1 q / (s * sqrt s))%Re.
Proof.
  move=> Hq Hs Ha Hal. have H := line_scal (Rpower PI (INR j / 2) * Gamma_fun (al - INR j / 2) / Gamma_fun al)%Re (t_moment2 q s m _ Hq Hs Ha).
  have -> : (tG al j.+1 q / (s * sqrt s) = Rpower PI (INR j / 2) * Gamma_fun (al - INR j / 2) / Gamma_fun al *
      (sqrt PI * Gamma_fun (al - INR j / 2 - 3 / 2) / (2 * Gamma_fun (al - INR j / 2)) * Rpower q (3 / 2 - (al - INR j / 2)) / (s * sqrt s)))%Re.
  { rewrite /tG PI_step half_step. have -> : (- (al - 1 - INR j / 2 - / 2) = 3 / 2 - (al - INR j / 2))%Re by field.
    have -> : (al - 1 - INR j / 2 - / 2 = al - INR j / 2 - 3 / 2)%Re by field.
    field. repeat split; first [exact: sqrt_nz | apply: Gamma_nz; lra | lra]. }
  apply: (is_RInt_gen_ext_on _ _ _ ends_line _ _ _ _ H) => x _. rewrite /tF. ring.
Qed.

Section MvT.
Variables (n : nat) (mu : 'cV[R]_n) (S : 'M[R]_n) (nu : R).
Hypotheses (PS : posdef S) (Hnu : (0 < nu)%Re).
Let P : 'M[R]_n := (/ nu)%Re *: invmx S.
Let al : R := ((nu + INR n) / 2)%Re.
Let K : R := (Gamma_fun al / (Gamma_fun (nu / 2) * sqrt ((nu * PI) ^ n * \det S)))%Re.
Lemma mvt_P : posdef P.
Proof. apply: posdef_scale; [exact: Rinv_0_lt_compat | exact: posdef_inv]. Qed.
Lemma mvt_base x : (1 + quad P (x - mu)%R = 1 + quad (invmx S) (x - mu)%R / nu)%Re.
Proof. rewrite /P quadZA. rewrite /Rdiv. congr (_ + _)%Re. exact: Rmult_comm. Qed.
Lemma mvt_al : (al - INR n / 2 = nu / 2)%Re. Proof. rewrite /al. field. Qed.
Lemma mvt_al_pos : (0 < al)%Re. Proof. have := pos_INR n. rewrite /al. lra. Qed.
Lemma mvt_j j : (j < n)%N -> ((nu + 1) / 2 <= al - INR j / 2)%Re.
Proof. move=> /ltP H. have : (INR j.+1 <= INR n)%Re by apply: le_INR. rewrite S_INR /al. lra. Qed.
Lemma mvt_K x : mvt_pdf mu S nu x = (K * tF al 0 (1 + quad P (x - mu)%R))%Re.
Proof.
  rewrite /mvt_pdf -mvt_base -/al -/K /tF. have -> : (INR 0 / 2 = 0)%Re by simpl; field. rewrite Rpower_0 Rminus_0_r.
  field. apply: Gamma_nz. exact: mvt_al_pos.
Qed.
Lemma mvt_Z : (K * (tF al n 1 / sqrt (\det P)) = 1)%Re.
Proof.
  have HS := det_pos PS. have Hpi := PI_RGT_0. have Hi := Rinv_0_lt_compat _ Hnu.
  rewrite /tF mvt_al Rpower_one_l Rmult_1_r /K. have -> : \det P = (/ (nu ^ n * \det S))%Re.
  { rewrite /P det_scale det_inv_pos // Rinv_pow_pos //. have E a b : (0 < a)%Re -> (0 < b)%Re -> (/ a * / b = / (a * b))%Re by move=> ? ?; field; lra.
    apply: E => //. exact: pow_lt. }
  have Hn := pow_lt _ n Hnu. have Hpn := pow_lt _ n Hpi.
  rewrite sqrt_inv.
  rewrite Rpow_mult_distr -(sqrt_pow_Rpower n Hpi).
  have -> : (nu ^ n * PI ^ n * \det S = PI ^ n * (nu ^ n * \det S))%Re by ring.
  rewrite sqrt_mult_alt; last lra.
  have Hd : (0 < nu ^ n * \det S)%Re by exact: Rmult_lt_0_compat.
  field. repeat split; first [exact: sqrt_nz | apply: Gamma_nz; first [exact: mvt_al_pos | lra]].
Qed.
Lemma mvt_inv : invmx P = nu *: S.
Proof.
  have Hi := Rinv_0_lt_compat _ Hnu. rewrite /P inv_scale //; last exact: posdef_inv. by rewrite invmxK Rinv_involutive; last lra.
Qed.

Lemma mvt_normalised : is_vec_int (mvt_pdf mu S nu) 1%Re.
Proof.
  have Hal : (INR n / 2 < al)%Re by rewrite /al; lra.
  have := is_vec_int_scal K (is_vec_int_t mu mvt_P Rlt_0_1 Hal).
  have -> : (K * t_int P 1 al = 1)%Re.
  { apply: etrans mvt_Z. rewrite /t_int /tF. have -> : (INR n / 2 - al = - (al - INR n / 2))%Re by ring. by []. }
  apply: is_vec_int_ext => x. rewrite mvt_K /tF. have -> : (INR 0 / 2 = 0)%Re by simpl; field. rewrite Rpower_0 Rminus_0_r.
  field. apply: Gamma_nz. exact: mvt_al_pos.
Qed.

Lemma mvt_mean w c : (1 < nu)%Re -> is_vec_int (fun x => ((c + dot w (x - mu)) * mvt_pdf mu S nu x)%Re) c.
Proof.
  move=> H1. have Hal := mvt_al_pos.
  have H := @radial_mean n (tF al) (fun q => 0 < q)%Re _ _ _ n P mu w c 1%Re (leqnn n) mvt_P Rlt_0_1.
  have E : (K * (c * tF al n 1 / sqrt (\det P)) = c)%Re.
  { have E := mvt_Z. transitivity (c * (K * (tF al n 1 / sqrt (\det P))))%Re; last by rewrite E Rmult_1_r. rewrite /Rdiv. ring. }
  rewrite -[X in is_vec_int _ X]E. apply: is_vec_int_ext (is_vec_int_scal K (H _ _ _)) => [x|q z Hq Hz|j q s m Hj Hq Hs|j q s m Hj Hq Hs].
  - rewrite mvt_K. ring.
  - lra.
  - have Hm := mvt_j Hj. apply: tF_0 => //. lra.
  - have Hm := mvt_j Hj. apply: tF_1 => //. lra.
Qed.

Lemma mvt_square w c : (2 < nu)%Re ->
  is_vec_int (fun x => ((c + dot w (x - mu)) ^ 2 * mvt_pdf mu S nu x)%Re) (c ^ 2 + nu / (nu - 2) * quad S w)%Re.
Proof.
  move=> H2. have Hal := mvt_al_pos.
  have H := @radial_square n (tF al) (tG al) (fun q => 0 < q)%Re _ _ _ _ _ n P mu w c 1%Re (leqnn n) mvt_P Rlt_0_1.
  have EG : (tG al n 1 = tF al n 1 / (nu - 2))%Re.
  { rewrite /tG /tF !Rpower_one_l mvt_al. have -> : (al - 1 - INR n / 2 = nu / 2 - 1)%Re by rewrite /al; field.
    have -> : Gamma_fun (nu / 2) = ((nu / 2 - 1) * Gamma_fun (nu / 2 - 1))%Re.
    { rewrite -Gamma_fun_succ; last lra. congr Gamma_fun. ring. }
    field. repeat split; first [lra | apply: Gamma_nz; first [exact: mvt_al_pos | lra]]. }
  have -> : (c ^ 2 + nu / (nu - 2) * quad S w = K * ((c ^ 2 * tF al n 1 + quad (invmx P) w * tG al n 1) / sqrt (\det P)))%Re.
  { rewrite mvt_inv quadZA EG. have E := mvt_Z.
    transitivity ((c ^ 2 + nu / (nu - 2) * quad S w) * (K * (tF al n 1 / sqrt (\det P))))%Re; first by rewrite E Rmult_1_r.
    move: (quad S w) => qS. have Hd : sqrt (\det P) <> 0%Re by apply: sqrt_nz; exact: det_pos mvt_P. field. split; first [exact: Hd | lra]. }
  apply: is_vec_int_ext (is_vec_int_scal K (H _ _ _ _ _)) => [x|q z Hq Hz|j q s m Hj Hq Hs|j q s m Hj Hq Hs|j q s m Hj Hq Hs|j q s m Hj Hq Hs].
  - rewrite mvt_K. ring.
  - lra.
  - have Hm := mvt_j Hj. apply: tF_0 => //. lra.
  - have Hm := mvt_j Hj. apply: tF_1 => //. lra.
  - have Hm := mvt_j Hj. apply: tG_0 => //. lra.
  - have Hm := mvt_j Hj. apply: tF_2 => //. lra.
Qed.
End MvT.
