(** The mean of the inverse Wishart distribution: every linear form of the matrix. *)

From Coq Require Import Reals ZArith Lra List.
From Coquelicot Require Import Coquelicot.
From mathcomp Require Import all_ssreflect all_algebra.
From Verif Require Import Spec.Special Spec.Densities.
From Verif Require Import Analysis.RField Spec.Matrices Spec.Wishart Analysis.Posdef Analysis.RealAux Analysis.Improper Analysis.TKernel
  Analysis.GammaBeta Analysis.GammaFacts Analysis.Regression Analysis.MultiGauss Analysis.InvWishart Analysis.RadialMoments Analysis.VectorMoments.
Delimit Scope R_scope with Re.

Set Implicit Arguments.
Unset Strict Implicit.
Unset Printing Implicit Defensive.
Import GRing.Theory.
Local Open Scope ring_scope.

(** the t kernel is a multiple of a t density *)
Lemma t_kernel n (P : 'M[R]_n) (m b : 'cV[R]_n) sg nu : posdef P -> (0 < sg)%Re -> (0 < nu)%Re ->
  Rpower (sg + quad P (b - m)%R)%Re (- ((nu + INR n) / 2))%Re =
  (t_int P sg ((nu + INR n) / 2) * mvt_pdf m ((sg / nu)%Re *: invmx P) nu b)%Re.
Proof.
  move=> PP Hs Hn. have Hc : (0 < sg / nu)%Re by exact: Rdiv_lt_0_compat. have HI := pos_INR n.
  have PS := posdef_scale Hc (posdef_inv PP).
  set c := (Gamma_fun ((nu + INR n) / 2) / (Gamma_fun (nu / 2) * sqrt ((nu * PI) ^ n * \det ((sg / nu)%Re *: invmx P))))%Re.
  set k := (Rpower sg (- ((nu + INR n) / 2)))%Re.
  have Hc0 : (0 < c)%Re.
  { rewrite /c. apply: Rdiv_lt_0_compat; first by apply: Gamma_fun_pos; lra.
    apply: Rmult_lt_0_compat; first by apply: Gamma_fun_pos; lra. apply: sqrt_lt_R0. apply: Rmult_lt_0_compat; last exact: det_pos.
    apply: pow_lt. apply: Rmult_lt_0_compat => //. exact: PI_RGT_0. }
  have E x : Rpower (sg + quad P (x - m)%R)%Re (- ((nu + INR n) / 2))%Re = (k / c * mvt_pdf m ((sg / nu)%Re *: invmx P) nu x)%Re.
  { rewrite /mvt_pdf -/c. have -> : invmx ((sg / nu)%Re *: invmx P) = (/ (sg / nu))%Re *: P by rewrite inv_scale ?invmxK //; exact: posdef_inv.
    rewrite quadZA. have Hq := quad_nonneg (x - m) PP. move: (quad P _) Hq => q Hq.
    have -> : (1 + / (sg / nu) * q / nu = (sg + q) / sg)%Re by field; lra.
    rewrite /k. rewrite Rpower_div_base; [|lra|lra]. have H1 := Rpower_pos sg (- ((nu + INR n) / 2)). field. lra. }
  have HT : t_int P sg ((nu + INR n) / 2) = (k / c)%Re.
  { have Hal : (INR n / 2 < (nu + INR n) / 2)%Re by lra.
    apply: is_vec_int_unique (is_vec_int_t m PP Hs Hal) _.
    have := is_vec_int_scal (k / c)%Re (mvt_normalised m PS Hn). rewrite Rmult_1_r. apply: is_vec_int_ext => x. by rewrite E. }
  by rewrite E HT.
Qed.

(** traces with block matrices *)
Lemma tr_A_block n (A : 'M[R]_(1 + n)) (a : R) (b : 'cV[R]_n) (C : 'M[R]_n) :
  \tr (A *m block_mx a%:M b^T b C) = (A 0%R 0%R * a + dot ((ursubmx A)^T + dlsubmx A)%R b + \tr (drsubmx A *m C)%R)%Re.
Proof.
  rewrite -{1}[A]submxK mulmx_block mxtrace_block.
  rewrite !mxtraceD.
  have -> : \tr (ulsubmx A *m a%:M) = (A 0%R 0%R * a)%Re by rewrite ul_00 -scalar_mxM mxtrace_scalar mulr1n.
  have -> : \tr (ursubmx A *m b) = dot (ursubmx A)^T b by rewrite /dot trmxK trace_mx11.
  have -> : \tr (dlsubmx A *m b^T) = dot (dlsubmx A) b.
  { rewrite mxtrace_mulC dotC /dot trace_mx11. by []. }
  rewrite dot_addl. toR. ring.
Qed.
Lemma dot_tr n (u v : 'cV[R]_n) (C : 'M[R]_n) : dot u (C *m v) = \tr (v *m u^T *m C).
Proof. by rewrite -mulmxA mxtrace_mulC trace_mx11 /dot mulmxA. Qed.

Lemma is_cone_int_iw_trace n nu (psi A : 'M[R]_n) c : posdef psi -> (INR n + 1 < nu)%Re ->
  is_cone_int (fun S => ((c + \tr (A *m S)%R) * iw_kernel nu psi S)%Re)
    ((c + \tr (A *m psi)%R / (nu - INR n - 1)) * iw_const nu psi)%Re.
Proof.
  elim: n nu psi A c => [|n IH] nu psi A c PP Hnu.
  - have Hn0 : (INR 0 - 1 < nu)%Re by move: Hnu => /=; lra.
    have H := is_cone_int_scal c (is_cone_int_iw PP Hn0).
    have Et (S : 'M[R]_0) : \tr (A *m S) = 0%Re by rewrite (flatmx0 (A *m S)) mxtrace0.
    rewrite Et. have -> : (c + 0 / (nu - INR 0 - 1) = c)%Re by rewrite /Rdiv; ring.
    apply: is_cone_int_ext H => S _. rewrite Et Rplus_0_r. by [].
  - have PP1 : @posdef (1 + n) psi := PP.
    have Hsg := schur_pos PP1. have PD := posdef_dr PP1. have HD := det_pos PD. have Hpi := PI_RGT_0.
    set sg := schur psi in Hsg. set D := drsubmx (psi : 'M[R]_(1 + n)) in PD HD.
    rewrite S_INR in Hnu. have Hn := pos_INR n.
    set al := ((nu + INR n) / 2)%Re.
    have Hal : (0 < al)%Re by rewrite /al; lra.
    have Hal1 : (0 < al - 1)%Re by rewrite /al; lra.
    have Hal' : (INR n / 2 < al)%Re by rewrite /al; lra.
    have Hnu2 : (2 < nu)%Re by lra. have Hnu0 : (0 < nu)%Re by lra.
    set K := (Gamma_fun al * Rpower 2 al)%Re.
    set L := (Rpower PI (INR n / 2) * Gamma_fun (nu / 2) * Rpower 2 al * Rpower sg (- (nu / 2)) / sqrt (\det D))%Re.
    pose A1 : 'M[R]_(1 + n) := A.
    set al0 := A1 0 0. set u := ((ursubmx A1)^T + dlsubmx A1 : 'cV[R]_n). set A' := drsubmx A1.
    set sh := shift (psi : 'M[R]_(1 + n)).
    pose B : 'M[R]_n := A' + sh *m u^T + al0 *: (sh *m sh^T) + (al0 * (sg / (nu - 2)))%Re *: invmx D.
    set c1 := (c + al0 * (sg / (nu - 2)))%Re.
    exists (fun C => (L * ((c1 + \tr (B *m C)%R) * iw_kernel (nu - 1)%Re D C))%Re). split.
    + move=> C PC. have HC := det_pos PC.
      set P := invmx C *m D *m invmx C. set m := C *m sh.
      have HP : posdef P := P_posdef PP1 PC.
      have UC := posdef_unit PC. have UD := posdef_unit PD.
      set k := (Rpower (\det C) (- (al + 1)) * exp (- (\tr (D *m invmx C)%R / 2)))%Re.
      exists (fun b => (k * K * Rpower (sg + quad P (b - m)%R) (- al)
        * (c + dot u b + \tr (A' *m C)%R + al0 * quad (invmx C) b + al0 / (nu + INR n - 2) * (sg + quad P (b - m)%R)))%Re). split.
      * move=> b. set lo := quad (invmx C) b. set q := (sg + quad P (b - m)%R)%Re.
        have Hq : (0 < q)%Re.
        { rewrite /q. have := quad_nonneg (b - m) HP. lra. }
        have H2 : (0 < q / 2)%Re by lra.
        set e := (c + dot u b + \tr (A' *m C)%R + al0 * lo)%Re.
        pose proof (is_RInt_gen_mult_l _ _ _ (k * e)%Re _ (is_RInt_gen_InvGamma_above lo al (q / 2)%Re Hal H2)) as H3.
        pose proof (is_RInt_gen_mult_l _ _ _ (k * al0)%Re _ (is_RInt_gen_InvGamma_above lo (al - 1)%Re (q / 2)%Re Hal1 H2)) as H4.
        pose proof (is_RInt_gen_plus_R _ _ _ _ _ _ H3 H4) as H5.
        have E : (k * K * Rpower q (- al) * (e + al0 / (nu + INR n - 2) * q) =
          k * e * (Gamma_fun al / Rpower (q / 2) al) + k * al0 * (Gamma_fun (al - 1) / Rpower (q / 2) (al - 1)))%Re.
        { have -> : Gamma_fun al = ((al - 1) * Gamma_fun (al - 1))%Re.
          { rewrite -Gamma_fun_succ //. congr Gamma_fun. ring. }
          have EK : K = ((al - 1) * Gamma_fun (al - 1) * Rpower 2 al)%Re.
          { rewrite /K. congr (_ * _)%Re. rewrite -Gamma_fun_succ //. congr Gamma_fun. ring. }
          rewrite EK. have -> : Rpower (q / 2) (al - 1) = (Rpower (q / 2) al / (q / 2))%Re by rewrite Rpower_pred.
          rewrite Rpower_div_base //; last lra. rewrite Rpower_opp_base.
          have Ea : (nu + INR n - 2 = 2 * (al - 1))%Re by rewrite /al; field. rewrite Ea.
          have H1 := Rpower_pos q al. have H6 := Rpower_pos 2 al. field. lra. }
        rewrite E. move: H5. apply (is_RInt_gen_ext_on _ _ _ (ends_above lo)) => a Ha.
        have Hs : (0 < a - lo)%Re by move: Ha; rewrite /lo; lra.
        rewrite /iw_kernel tr_A_block -/al0 -/u -/A' -[block_mx _ _ _ _]/(blk a b C).
        rewrite (tr_block PP1 PC Hs) (blk_det a b PC) -/lo -/sg -/D -/P -/m -/q.
        rewrite Rpower_mult_base // /k S_INR.
        have ->: (- ((nu + (INR n + 1) + 1) / 2) = - (al + 1))%Re by rewrite /al; field.
        have ->: (- al - 1 = - (al + 1))%Re by ring.
        have ->: Rpower (a - lo) (- (al - 1) - 1) = (Rpower (a - lo) (- (al + 1)) * (a - lo))%Re.
        { have -> : (- (al - 1) - 1 = - (al + 1) + 1)%Re by ring. rewrite Rpower_plus Rpower_1 //. }
        have ->: (- ((q / (a - lo) + \tr (D *m invmx C)%R) / 2) = - (q / 2 / (a - lo)) + - (\tr (D *m invmx C)%R / 2))%Re by field; lra.
        rewrite exp_plus /e. ring.
      * set T := t_int P sg al.
        have EL : (L * iw_kernel (nu - 1) D C = k * K * T)%Re.
        { rewrite /T /t_int /L /iw_kernel /k /K (det_P (psi : 'M[R]_(1 + n)) PC) -/D.
          have ->: (al - INR n / 2 = nu / 2)%Re by rewrite /al; field.
          have ->: (INR n / 2 - al = - (nu / 2))%Re by rewrite /al; field.
          have ->: sqrt (\det D / (\det C * \det C)) = (sqrt (\det D) / \det C)%Re.
          { rewrite sqrt_div_alt; last exact: Rmult_lt_0_compat. by rewrite sqrt_square //; lra. }
          have ->: (- (al + 1) = - ((nu - 1 + INR n + 1) / 2) - 1)%Re by rewrite /al; field.
          rewrite Rpower_pred //.
          field. repeat split; first [exact: sqrt_nz | apply: Gamma_nz; lra | lra]. }
        have Hc : (0 < sg / nu)%Re by exact: Rdiv_lt_0_compat.
        have PS := posdef_scale Hc (posdef_inv HP).
        pose G : 'M[R]_n := al0 *: invmx C + (al0 / (nu + INR n - 2))%Re *: P.
        pose w : 'cV[R]_n := u + (2 * al0)%Re *: (invmx C *m m).
        set c0 := (c + dot u m + \tr (A' *m C)%R + al0 * quad (invmx C) m + al0 / (nu + INR n - 2) * sg)%Re.
        have H := is_vec_int_scal (k * K * T)%Re (mvt_quad m G w c0 PS Hnu2).
        have SCi := posdef_sym (posdef_inv PC).
        have EP : invmx P = C *m invmx D *m C.
        { have UP := posdef_unit HP. apply: (can_inj (mulKmx UP)). rewrite mulmxV // /P.
          rewrite -!mulmxA (mulmxA (invmx C) C) mulVmx // mul1mx (mulmxA D) mulmxV // mul1mx mulVmx //. }
        have EG : \tr (G *m ((nu / (nu - 2))%Re *: ((sg / nu)%Re *: invmx P))) =
          (al0 * (sg / (nu - 2)) * \tr (invmx D *m C)%R + al0 * (sg / (nu - 2)) * (INR n / (nu + INR n - 2)))%Re.
        { rewrite /G scalerA -scalemxAr mulmxDl -!scalemxAl linearZ /= mxtraceD !linearZ /=.
          rewrite mulmxV ?posdef_unit // EP !mulmxA mulVmx // mul1mx mxtrace1.
          have -> : (n%:R : R) = INR n by rewrite RnatE. toR.
          move: (\tr _) => tt. field. lra. }
        have EE : (k * K * T * (c0 + \tr (G *m ((nu / (nu - 2))%Re *: ((sg / nu)%Re *: invmx P)))%R) =
          L * ((c1 + \tr (B *m C)%R) * iw_kernel (nu - 1) D C))%Re.
        { have -> : (L * ((c1 + \tr (B *m C)%R) * iw_kernel (nu - 1) D C) = (L * iw_kernel (nu - 1) D C) * (c1 + \tr (B *m C)%R))%Re.
          { move: (\tr (B *m C)%R) => tt. ring. }
          rewrite EL EG. congr (_ * _)%Re.
          have -> : \tr (B *m C) = (\tr (A' *m C)%R + dot u m + al0 * quad (invmx C) m + al0 * (sg / (nu - 2)) * \tr (invmx D *m C)%R)%Re.
          { rewrite /B !mulmxDl !mxtraceD -!scalemxAl !linearZ /= -dot_tr -/m.
            have -> : \tr (sh *m sh^T *m C) = quad (invmx C) m.
            { have Em : invmx C *m m = sh by rewrite /m mulmxA mulVmx // mul1mx. by rewrite -dot_tr -/m dotC /dot /quad -mulmxA Em. }
            by []. }
          rewrite /c0 /c1. move: (\tr (A' *m C)%R) (dot u m) (quad _ m) (\tr (invmx D *m C)%R) => t1 t2 t3 t4. field. lra. }
        rewrite EE in H. apply: is_vec_int_ext H => b.
        have Et := t_kernel m b HP Hsg Hnu0. rewrite -/al -/T in Et. rewrite Et.
        have Eb : b = m + (b - m) by rewrite addrC subrK.
        have E1 : (c + dot u b + \tr (A' *m C)%R + al0 * quad (invmx C) b + al0 / (nu + INR n - 2) * (sg + quad P (b - m)%R) =
          c0 + dot w (b - m)%R + quad G (b - m)%R)%Re.
        { have -> : quad (invmx C) b = (quad (invmx C) m + 2 * bil (invmx C) m (b - m)%R + quad (invmx C) (b - m)%R)%Re.
          { rewrite -quad_add // -Eb. by []. }
          have -> : dot u b = (dot u m + dot u (b - m)%R)%Re by rewrite -dotD -Eb.
          rewrite /w dot_addl /G quadDA !quadZA (dotC (_ *: _)) dotZ (dotC (b - m)).
          have -> : bil (invmx C) m (b - m) = dot (invmx C *m m) (b - m).
          { by rewrite /bil /dot [(invmx C *m m)^T]trmx_mul SCi. }
          rewrite /c0. move: (dot u m) (dot u (b - m)) (quad _ m) (dot _ _) (quad (invmx C) (b - m)) (quad P (b - m)) (\tr _) => t1 t2 t3 t4 t5 t6 t7.
          ring. }
        rewrite E1. move: (c0 + dot w _ + _)%Re => tt. move: (mvt_pdf _ _ _ _) => t2. clear. move: k K T => k K T. ring.
    + have Hnu1 : (INR n + 1 < nu - 1)%Re by lra.
      have H := is_cone_int_scal L (IH (nu - 1)%Re D B c1 PD Hnu1).
      have Hmain : (L * ((c1 + \tr (B *m D)%R / (nu - 1 - INR n - 1)) * iw_const (nu - 1) D) =
        (c + \tr (A *m psi)%R / (nu - INR n.+1 - 1)) * iw_const nu psi)%Re; last by rewrite Hmain in H.
      have EC : iw_const nu psi = (L * iw_const (nu - 1) D)%Re.
      { rewrite /iw_const /L multigamma_S (det_schur PP1) -/sg -/D S_INR.
        have ->: ((nu - 1) / 2 = nu / 2 - /2)%Re by field.
        rewrite Rpower_mult_base // Rpower_minus Rpower_sqrt //.
        have ->: (nu * (INR n + 1) / 2 = al + (nu - 1) * INR n / 2)%Re by rewrite /al; field.
        rewrite Rpower_plus Rpower_opp_base.
        have H1 := Rpower_pos sg (nu / 2). have H2 := Rpower_pos (\det D) (nu / 2).
        field. repeat split; first [exact: sqrt_nz | apply: Gamma_nz; lra | lra]. }
      rewrite EC S_INR.
      have UD := posdef_unit PD.
      have ED : D *m sh = dlsubmx (psi : 'M[R]_(1 + n)) by rewrite /sh /shift mulmxA mulmxV // mul1mx.
      have ETA : \tr (A *m psi) = (al0 * psi 0%R 0%R + dot u (D *m sh)%R + \tr (A' *m D)%R)%Re.
      { have Epsi : (psi : 'M[R]_(1 + n)) = block_mx (psi 0 0)%:M (dlsubmx (psi : 'M[R]_(1 + n)))^T (dlsubmx (psi : 'M[R]_(1 + n))) D.
        { apply: etrans (esym (submxK (psi : 'M[R]_(1 + n)))) _. rewrite ul_00. congr block_mx.
          by rewrite trmx_dlsub (posdef_sym PP1). }
        pose proof (f_equal (fun M => \tr (A1 *m M)) Epsi) as EE. rewrite tr_A_block -/al0 -/u -/A' -ED in EE. exact: EE. }
      have E0 : psi 0 0 = (sg + quad D sh)%Re.
      { rewrite /sg /schur -/D. have -> : quad (invmx D) (dlsubmx (psi : 'M[R]_(1 + n))) = quad D sh.
        { rewrite -ED. rewrite /quad trmx_mul (posdef_sym PD) -!mulmxA (mulmxA (invmx D)) mulVmx // mul1mx. by []. }
        move: (quad D sh) => qq. move: (psi 0 0) => pp. toR. ring. }
      have EBD : \tr (B *m D) = (\tr (A' *m D)%R + dot u (D *m sh)%R + al0 * quad D sh + al0 * (sg / (nu - 2)) * INR n)%Re.
      { rewrite /B !mulmxDl !mxtraceD -!scalemxAl !linearZ /= -dot_tr mulVmx // mxtrace1.
        have -> : (n%:R : R) = INR n by rewrite RnatE.
        have -> : \tr (sh *m sh^T *m D) = quad D sh by rewrite -dot_tr /dot /quad mulmxA. by []. }
      rewrite EBD ETA E0 /c1. move: (\tr _) (dot _ _) (quad _ _) (iw_const _ _) => t1 t2 t3 t4. toR. field. lra.
Qed.

Lemma iw_trace n nu (psi A : 'M[R]_n) c : posdef psi -> (INR n + 1 < nu)%Re ->
  is_cone_int (fun S => ((c + \tr (A *m S)%R) * iw_pdf nu psi S)%Re) (c + \tr (A *m psi)%R / (nu - INR n - 1))%Re.
Proof.
  move=> PP Hnu. have Hnu' : (INR n - 1 < nu)%Re by lra. have HK := iw_const_pos psi Hnu'.
  have := is_cone_int_scal (/ iw_const nu psi)%Re (is_cone_int_iw_trace A c PP Hnu).
  move: (\tr (A *m psi)) => tt.
  have -> : (/ iw_const nu psi * ((c + tt / (nu - INR n - 1)) * iw_const nu psi) = c + tt / (nu - INR n - 1))%Re by field; lra.
  apply: is_cone_int_ext => S _. rewrite iw_pdf_eq // /Rdiv. move: (\tr _) => t2. ring.
Qed.
