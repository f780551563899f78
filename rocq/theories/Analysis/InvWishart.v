(** The multivariate t and inverse Wishart normalising constants. *)

From Coq Require Import Reals Lra.
From Coquelicot Require Import Coquelicot.
From mathcomp Require Import all_ssreflect all_algebra.
From Verif Require Import Spec.Special Analysis.Improper Analysis.RealAux Analysis.GammaBeta Analysis.GammaFacts Analysis.Gauss Analysis.TKernel.
From Verif Require Import Analysis.RField Spec.Matrices Spec.Wishart Analysis.Posdef Analysis.MultiGauss Analysis.Regression.
Delimit Scope R_scope with Re.

Set Implicit Arguments.
Unset Strict Implicit.
Unset Printing Implicit Defensive.
Import GRing.Theory.
Local Open Scope ring_scope.

Lemma Gamma_nz a : (0 < a)%Re -> Gamma_fun a <> 0%Re.
Proof. move=> H. apply: Rgt_not_eq. exact: Gamma_fun_pos. Qed.

Lemma sqrt_nz x : (0 < x)%Re -> sqrt x <> 0%Re.
Proof. move=> H. have := sqrt_lt_R0 x H. lra. Qed.

(** Integral over R^n of (sg + (x - m)^T P (x - m))^-al *)
Definition t_int n (P : 'M[R]_n) sg al : R :=
  (Rpower PI (INR n / 2) * Gamma_fun (al - INR n / 2) / Gamma_fun al * Rpower sg (INR n / 2 - al) / sqrt (\det P))%Re.
Lemma is_vec_int_t n (P : 'M[R]_n) (m : 'cV[R]_n) sg al : posdef P -> (0 < sg)%Re -> (INR n / 2 < al)%Re ->
  is_vec_int (fun x => Rpower (sg + quad P (x - m)%R)%Re (- al)%Re) (t_int P sg al).
Proof.
  elim: n P m sg => [|n IH] P m sg PD Hsg Ha.
  - rewrite /t_int /= det_mx00. rewrite (flatmx0 (0 - m)) quad0 RoneE sqrt_1.
    have ->: (0 / 2 = 0)%Re by field. rewrite Rpower_0 RzeroE.
    have ->: (al - 0 = al)%Re by ring. have ->: (0 - al = - al)%Re by ring. have ->: (sg + 0 = sg)%Re by ring.
    move: Ha => /= Ha. field. apply: Gamma_nz. lra.
  - have PD1 : @posdef (1 + n) P := PD.
    have Hs := schur_pos PD1. have PC := posdef_dr PD1. have HC := det_pos PC. have Hpi := PI_RGT_0.
    set s := schur P in Hs. set C := drsubmx (P : 'M[R]_(1 + n)) in PC HC.
    rewrite S_INR in Ha.
    have Hn := pos_INR n.
    have Ha' : (INR n / 2 < al)%Re by lra.
    set K := (Rpower PI (INR n / 2) * Gamma_fun (al - INR n / 2) / Gamma_fun al / sqrt (\det C))%Re.
    exists (fun x => (K * Rpower (sg + s * (x - m 0%R 0%R) ^ 2) (- (al - INR n / 2)))%Re). split.
    + move=> x.
      set m' : 'cV[R]_n := dsubmx (m : 'cV[R]_(1 + n)) - (x - m 0%R 0%R) *: shift (P : 'M[R]_(1 + n)).
      have Hsg' : (0 < sg + s * (x - m 0%R 0%R) ^ 2)%Re.
      { apply: Rplus_lt_le_0_compat => //. apply: Rmult_le_pos; [lra | exact: pow2_ge_0]. }
      have ->: (K * Rpower (sg + s * (x - m 0%R 0%R) ^ 2) (- (al - INR n / 2)))%Re =
        t_int C (sg + s * (x - m 0%R 0%R) ^ 2)%Re al.
      { rewrite /K /t_int. have ->: (- (al - INR n / 2) = INR n / 2 - al)%Re by ring. field. repeat split; first [exact: sqrt_nz | apply: Gamma_nz; lra]. }
      apply: (is_vec_int_ext _ (IH C m' _ PC Hsg' Ha')) => v.
      rewrite (col_mx_split (m : 'cV[R]_(1 + n))) col_mx_sub (quad_schur PD1).
      f_equal.
      have ->: v - m' = v - dsubmx (m : 'cV[R]_(1 + n)) + (x - m 0%R 0%R) *: shift (P : 'M[R]_(1 + n)).
      { by rewrite /m' opprB addrA addrAC. }
      rewrite -/C -/s.
      have ->: (col_mx (m 0 0)%:M (dsubmx (m : 'cV[R]_(1 + n)))) 0 0 = m 0 0.
      { by rewrite -(col_mx_split (m : 'cV[R]_(1 + n))). }
      rewrite !RminusE. by rewrite Rplus_assoc.
    + have ->: t_int P sg al = (K * (sqrt PI * Gamma_fun (al - INR n / 2 - /2) / Gamma_fun (al - INR n / 2)
        * Rpower sg (/2 - (al - INR n / 2)) / sqrt s))%Re.
      { rewrite /t_int /K (det_schur PD1) -/s -/C S_INR sqrt_mult_alt; last exact: Rlt_le.
        have ->: ((INR n + 1) / 2 = INR n / 2 + /2)%Re by field.
        rewrite Rpower_plus Rpower_sqrt //.
        have ->: (al - (INR n / 2 + / 2) = al - INR n / 2 - /2)%Re by ring.
        have ->: (INR n / 2 + / 2 - al = / 2 - (al - INR n / 2))%Re by ring.
        field. repeat split; first [exact: sqrt_nz | apply: Gamma_nz; lra]. }
      apply: is_RInt_gen_mult_l. apply: is_RInt_gen_t_quad => //. lra.
Qed.

(** Integrals over the cone only look at positive definite matrices *)
Lemma is_cone_int_ext n (f g : 'M[R]_n -> R) l :
  (forall S, posdef S -> f S = g S) -> is_cone_int f l -> is_cone_int g l.
Proof.
  elim: n f g l => [|n IH] f g l E /=.
  - rewrite E //. split; first by rewrite trmx0. move=> v []. exact: flatmx0.
  - move=> [k [H1 H2]]. exists k. split=> // C PC. case: (H1 C PC) => h [H3 H4].
    exists h. split=> // b.
    apply: (is_RInt_gen_ext_on _ _ _ (ends_above _) _ _ _ _ (H3 b)) => a Ha.
    apply: E. exact: (blk_posdef PC Ha).
Qed.
Lemma is_cone_int_scal n (c : R) (f : 'M[R]_n -> R) l :
  is_cone_int f l -> is_cone_int (fun S => (c * f S)%Re) (c * l)%Re.
Proof.
  elim: n f l => [|n IH] f l /=.
  - by move=> ->.
  - move=> [k [H1 H2]]. exists (fun C => (c * k C)%Re). split; last exact: IH.
    move=> C PC. case: (H1 C PC) => h [H3 H4]. exists (fun b => (c * h b)%Re). split.
    + move=> b. exact: is_RInt_gen_mult_l.
    + exact: is_vec_int_scal.
Qed.
Lemma is_cone_int_unique n (f : 'M[R]_n -> R) l l' : is_cone_int f l -> is_cone_int f l' -> l = l'.
Proof.
  elim: n f l l' => [|n IH] f l l' /=.
  - by move=> -> ->.
  - move=> [k [H1 H2]] [k' [H1' H2']]. apply: IH H2 _. apply: is_cone_int_ext H2' => C PC.
    case: (H1 C PC) => h [H3 H4]. case: (H1' C PC) => h' [H3' H4'].
    apply: is_vec_int_unique H4' _. apply: is_vec_int_ext H4 => b.
    exact: (is_RInt_gen_unique_on _ _ _ (ends_above _) _ _ _ (H3 b) (H3' b)).
Qed.

(** trace of a product with the inverse of a block matrix *)
Lemma tr_quad n (A : 'M[R]_n) (w : 'cV[R]_n) : \tr (A *m (w *m w^T)) = quad A w.
Proof. by rewrite mulmxA mxtrace_mulC mulmxA trace_mx11. Qed.

Section TraceBlock.
Variables (n : nat) (psi : 'M[R]_(1 + n)) (a : R) (b : 'cV[R]_n) (C : 'M[R]_n).
Hypotheses (PP : posdef psi) (PC : posdef C).
Let s : R := (a - quad (invmx C) b)%Re.
Hypothesis Hs : (0 < s)%Re.
Let D := drsubmx psi.
Let P := invmx C *m D *m invmx C.
Let m := C *m shift psi.
Lemma P_posdef : posdef P.
Proof.
  have PCi := posdef_inv PC. have SCi := posdef_sym PCi. have PD := posdef_dr PP. 
  split.
  - by rewrite /P -{1}SCi; rewrite sym_congr ?(posdef_sym PD) // SCi.
  - move=> v Nv. rewrite /P -{1}SCi quad_congr. apply: (proj2 PD) => E. apply: Nv.
    move/(f_equal (mulmx C)): E. by rewrite mulmxA mulmxV ?posdef_unit // mul1mx mulmx0.
Qed.
Lemma det_P : \det P = (\det D / (\det C * \det C))%Re.
Proof.
  have H := det_pos PC.
  have E c d : (0 < c)%Re -> (/ c * d * / c = d / (c * c))%Re by move=> ?; field; lra.
  rewrite /P !det_mulmx !(det_inv_pos PC). exact: E.
Qed.
Lemma tr_block : \tr (psi *m invmx (blk a b C)) =
  ((schur psi + quad P (b - m)%R) / s + \tr (D *m invmx C)%R)%Re.
Proof.
  rewrite (blk_inv PC Hs). set u := invmx C *m b.
  set w := col_mx (1%:M : 'M[R]_1) (- u).
  have ->: block_mx (/ s)%Re%:M (- ((/ s)%Re *: u^T)) (- ((/ s)%Re *: u)) (invmx C + (/ s)%Re *: (u *m u^T)) =
    (/ s)%Re *: (w *m w^T) + block_mx 0 0 0 (invmx C).
  { rewrite /w tr_col_mx mul_col_row trmx1 !mul1mx mulmx1 linearN /= mulmxN mulNmx opprK.
    rewrite scale_block_mx add_block_mx !addr0 scalemx1 !scalerN. by rewrite [X in block_mx _ _ _ X]addrC. }
  rewrite mulmxDr raddfD /= -scalemxAr linearZ /= tr_quad.
  have ->: quad psi w = (schur psi + quad P (b - m)%R)%Re.
  { rewrite /w (quad_schur PP) scale1r. rewrite pow1 Rmult_1_r. congr (_ + _)%Re.
    rewrite addrC -quadN opprB -/D.
    have ->: u - shift psi = invmx C *m (b - m).
    { by rewrite /m mulmxBr mulmxA mulVmx ?posdef_unit // mul1mx. }
    rewrite -quad_congr trmx_inv (posdef_sym PC). by []. }
  have ->: \tr (psi *m block_mx 0 0 0 (invmx C)) = \tr (D *m invmx C).
  { rewrite -[psi]submxK mulmx_block !mulmx0 !addr0 !add0r mxtrace_block mxtrace0 add0r. by []. }
  rewrite /Rdiv Rmult_comm. by [].
Qed.
End TraceBlock.

Lemma multigamma_S n a : multigamma n.+1 a = (Rpower PI (INR n / 2) * Gamma_fun a * multigamma n (a - /2))%Re.
Proof.
  rewrite /multigamma big_ord_recl.
  have ->: (a - INR (nat_of_ord (ord0 : 'I_n.+1)) / 2 = a)%Re by rewrite /=; field.
  have ->: (INR (n.+1 * (n.+1 - 1)) / 4 = INR n / 2 + INR (n * (n - 1)) / 4)%Re.
  { rewrite subSS subn0. case: n => [|n]; first by rewrite muln0 mul0n /=; field.
    rewrite subSS subn0 -!multE !mult_INR !S_INR. field. }
  rewrite Rpower_plus.
  have ->: \prod_(i < n) Gamma_fun (a - INR (lift ord0 i) / 2)%Re = \prod_(j < n) Gamma_fun (a - / 2 - INR j / 2)%Re.
  { apply: eq_bigr => i _. congr Gamma_fun. rewrite lift0 S_INR. field. }
  rewrite RmultE. ring.
Qed.
Lemma multigamma_pos n a : ((INR n - 1) / 2 < a)%Re -> (0 < multigamma n a)%Re.
Proof.
  elim: n a => [|n IH] a H.
  - rewrite /multigamma big_ord0 RoneE. have := Rpower_pos PI (INR (0 * (0 - 1)) / 4). lra.
  - rewrite multigamma_S. rewrite S_INR in H. have Hn := pos_INR n.
    apply: Rmult_lt_0_compat; first apply: Rmult_lt_0_compat.
    + exact: Rpower_pos.
    + apply: Gamma_fun_pos. lra.
    + apply: IH. lra.
Qed.

(** The inverse Wishart normalising constant *)
Definition iw_kernel n (nu : R) (psi S : 'M[R]_n) : R :=
  (Rpower (\det S) (- ((nu + INR n + 1) / 2)) * exp (- (\tr (psi *m invmx S)%R / 2)))%Re.
Definition iw_const n (nu : R) (psi : 'M[R]_n) : R :=
  (Rpower 2 (nu * INR n / 2) * multigamma n (nu / 2) / Rpower (\det psi) (nu / 2))%Re.

Lemma is_cone_int_iw n nu (psi : 'M[R]_n) : posdef psi -> (INR n - 1 < nu)%Re ->
  is_cone_int (iw_kernel nu psi) (iw_const nu psi).
Proof.
  elim: n nu psi => [|n IH] nu psi PP Hnu.
  - rewrite /= /iw_kernel /iw_const /multigamma big_ord0 !det_mx00 !RoneE !Rpower_one_l.
    rewrite (flatmx0 (psi *m _)) mxtrace0 RzeroE muln0 /=.
    have ->: (nu * 0 / 2 = 0)%Re by field. have ->: (0 / 4 = 0)%Re by field. have ->: (- (0 / 2) = 0)%Re by field.
    rewrite !Rpower_0 exp_0. field.
  - have PP1 : @posdef (1 + n) psi := PP.
    have Hsg := schur_pos PP1. have PD := posdef_dr PP1. have HD := det_pos PD. have Hpi := PI_RGT_0.
    set sg := schur psi in Hsg. set D := drsubmx (psi : 'M[R]_(1 + n)) in PD HD.
    rewrite S_INR in Hnu. have Hn := pos_INR n.
    set al := ((nu + INR n) / 2)%Re.
    have Hal : (0 < al)%Re by rewrite /al; lra.
    have Hal' : (INR n / 2 < al)%Re by rewrite /al; lra.
    set K := (Gamma_fun al * Rpower 2 al)%Re.
    set L := (Rpower PI (INR n / 2) * Gamma_fun (nu / 2) * Rpower 2 al * Rpower sg (- (nu / 2)) / sqrt (\det D))%Re.
    exists (fun C => (L * iw_kernel (nu - 1)%Re D C)%Re). split.
    + move=> C PC. have HC := det_pos PC.
      set P := invmx C *m D *m invmx C. set m := C *m shift (psi : 'M[R]_(1 + n)).
      have HP : posdef P := P_posdef PP1 PC.
      set k := (Rpower (\det C) (- (al + 1)) * exp (- (\tr (D *m invmx C)%R / 2)))%Re.
      exists (fun b => (k * K * Rpower (sg + quad P (b - m)%R) (- al))%Re). split.
      * move=> b. set lo := quad (invmx C) b. set q := (sg + quad P (b - m)%R)%Re.
        have Hq : (0 < q)%Re.
        { rewrite /q. have := quad_nonneg (b - m) HP. lra. }
        have ->: (k * K * Rpower q (- al) = k * (Gamma_fun al / Rpower (q / 2) al))%Re.
        { rewrite Rpower_div_base //; last lra. rewrite Rpower_opp_base /K.
          have H1 := Rpower_pos q al. have H2 := Rpower_pos 2 al. field. lra. }
        have H2 : (0 < q / 2)%Re by lra.
        pose proof (is_RInt_gen_mult_l _ _ _ k _ (is_RInt_gen_InvGamma_above lo al (q / 2)%Re Hal H2)) as H.
        move: H. apply (is_RInt_gen_ext_on _ _ _ (ends_above lo)) => a Ha.
        have Hs : (0 < a - lo)%Re by move: Ha; rewrite /lo; lra.
        rewrite /iw_kernel -[block_mx _ _ _ _]/(blk a b C).
        rewrite (tr_block PP1 PC Hs) (blk_det a b PC) -/lo -/sg -/D -/P -/m -/q.
        rewrite Rpower_mult_base // /k S_INR.
        have ->: (- ((nu + (INR n + 1) + 1) / 2) = - (al + 1))%Re by rewrite /al; field.
        have ->: (- al - 1 = - (al + 1))%Re by ring.
        have ->: (- ((q / (a - lo) + \tr (D *m invmx C)%R) / 2) = - (q / 2 / (a - lo)) + - (\tr (D *m invmx C)%R / 2))%Re by field; lra.
        rewrite exp_plus. ring.
      * have ->: (L * iw_kernel (nu - 1) D C = k * K * t_int P sg al)%Re; last first.
        { apply: is_vec_int_scal. exact: is_vec_int_t. }
        rewrite /t_int /L /iw_kernel /k /K (det_P (psi : 'M[R]_(1 + n)) PC) -/D.
        have ->: (al - INR n / 2 = nu / 2)%Re by rewrite /al; field.
        have ->: (INR n / 2 - al = - (nu / 2))%Re by rewrite /al; field.
        have ->: sqrt (\det D / (\det C * \det C)) = (sqrt (\det D) / \det C)%Re.
        { rewrite sqrt_div_alt; last exact: Rmult_lt_0_compat. by rewrite sqrt_square //; lra. }
        have ->: (- (al + 1) = - ((nu - 1 + INR n + 1) / 2) - 1)%Re by rewrite /al; field.
        rewrite Rpower_pred //.
        field. repeat split; first [exact: sqrt_nz | apply: Gamma_nz; lra | lra].
    + have ->: iw_const nu psi = (L * iw_const (nu - 1) D)%Re; last first.
      { apply: is_cone_int_scal. apply: IH => //. lra. }
      rewrite /iw_const /L multigamma_S (det_schur PP1) -/sg -/D S_INR.
      have ->: ((nu - 1) / 2 = nu / 2 - /2)%Re by field.
      rewrite Rpower_mult_base // Rpower_minus Rpower_sqrt //.
      have ->: (nu * (INR n + 1) / 2 = al + (nu - 1) * INR n / 2)%Re by rewrite /al; field.
      rewrite Rpower_plus Rpower_opp_base.
      have H1 := Rpower_pos sg (nu / 2). have H2 := Rpower_pos (\det D) (nu / 2).
      field. repeat split; first [exact: sqrt_nz | apply: Gamma_nz; lra | lra].
Qed.

Lemma iw_pdf_eq n nu (psi S : 'M[R]_n) : posdef psi -> (INR n - 1 < nu)%Re ->
  iw_pdf nu psi S = (iw_kernel nu psi S / iw_const nu psi)%Re.
Proof.
  move=> PP Hnu. rewrite /iw_pdf /iw_kernel /iw_const.
  have H1 := Rpower_pos (\det psi) (nu / 2). have H2 := Rpower_pos 2 (nu * INR n / 2).
  have H3 : (0 < multigamma n (nu / 2))%Re by apply: multigamma_pos; lra.
  field. lra.
Qed.
Lemma iw_const_pos n nu (psi : 'M[R]_n) : (INR n - 1 < nu)%Re -> (0 < iw_const nu psi)%Re.
Proof.
  move=> Hnu. rewrite /iw_const. apply: Rdiv_lt_0_compat; last exact: Rpower_pos.
  apply: Rmult_lt_0_compat; first exact: Rpower_pos. apply: multigamma_pos; lra.
Qed.
Lemma iw_normalised n nu (psi : 'M[R]_n) : posdef psi -> (INR n - 1 < nu)%Re -> is_cone_int (iw_pdf nu psi) 1%Re.
Proof.
  move=> PP Hnu. have HK := iw_const_pos psi Hnu.
  have := is_cone_int_scal (/ iw_const nu psi)%Re (is_cone_int_iw PP Hnu).
  rewrite Rinv_l; last lra. apply: is_cone_int_ext => S _. rewrite iw_pdf_eq //. by rewrite Rmult_comm.
Qed.
