(** Gaussian prior and likelihood for a mean vector. *)

From Coq Require Import Reals Lra.
From Coquelicot Require Import Coquelicot.
From mathcomp Require Import all_ssreflect all_algebra.
From Verif Require Import Analysis.RealAux Analysis.RField Spec.Matrices Analysis.Posdef Analysis.MultiGauss Analysis.Regression.
Delimit Scope R_scope with Re.

Set Implicit Arguments.
Unset Strict Implicit.
Unset Printing Implicit Defensive.
Import GRing.Theory.
Local Open Scope ring_scope.

Section MvnBayes.
Variable n : nat.
Implicit Types (mu t x : 'cV[R]_n) (P cov : 'M[R]_n) (xs : list 'cV[R]_n).

Definition mvn_const cov : R := sqrt ((2 * PI) ^ n * \det cov).

Lemma mvn_pdf_eq mu cov t : mvn_pdf mu cov t = (exp (- (quad (invmx cov) (t - mu)%R / 2)) / mvn_const cov)%Re.
Proof. by []. Qed.

(** the sum of the squared distances *)
Definition vsum xs : 'cV[R]_n := \sum_(x <- xs) x.
Definition qsum P xs : R := \sum_(x <- xs) quad P x.
Definition dsum P xs t : R := \sum_(x <- xs) quad P (x - t).

Lemma mvn_lik_eq cov xs t :
  mvn_lik cov xs t = (exp (- (dsum (invmx cov) xs t / 2)) / mvn_const cov ^ size xs)%Re.
Proof.
  elim: xs => [|x xs IH].
  - rewrite /mvn_lik /dsum !big_nil /=. rewrite RzeroE.
    have ->: (- (0 / 2) = 0)%Re by field. rewrite exp_0 RoneE. by rewrite Rdiv_1.
  - rewrite /mvn_lik /dsum !big_cons /= -/(mvn_lik cov xs t) -/(dsum (invmx cov) xs t) IH mvn_pdf_eq.
    rewrite RmultE RplusE.
    have ->: (- ((quad (invmx cov) (x - t)%R + dsum (invmx cov) xs t) / 2) =
      - (quad (invmx cov) (x - t)%R / 2) + - (dsum (invmx cov) xs t / 2))%Re by field.
    rewrite exp_plus /Rdiv Rinv_mult. ring.
Qed.

Lemma dsum_expand P xs t : P^T = P ->
  dsum P xs t = (qsum P xs - 2 * bil P (vsum xs) t + INR (size xs) * quad P t)%Re.
Proof.
  move=> S. elim: xs => [|x xs IH].
  - rewrite /dsum /qsum /vsum !big_nil bil0l /=. toR. ring.
  - rewrite /dsum /qsum /vsum !big_cons -/(dsum P xs t) -/(qsum P xs) -/(vsum xs) IH.
    rewrite quad_sub // bilDl -[size (x :: xs)]/((size xs).+1) S_INR.
    move: (INR (size xs)) => k. toR. ring.
Qed.

Variables (mu0 : 'cV[R]_n) (P0 P : 'M[R]_n) (xs : list 'cV[R]_n).
Hypotheses (PD0 : posdef P0) (PD : posdef P).
Definition P_post : 'M[R]_n := P0 + INR (size xs) *: P.
Definition m_post : 'cV[R]_n := invmx P_post *m (P0 *m mu0 + P *m vsum xs).
Definition c_post : R := (quad P0 mu0 + qsum P xs - quad P_post m_post)%Re.

Lemma P_post_posdef : posdef P_post.
Proof.
  apply: posdef_add => //.
  - by rewrite linearZ /= (posdef_sym PD).
  - move=> v. rewrite quadZA. apply: Rmult_le_pos; [exact: pos_INR | exact: quad_nonneg].
Qed.
Lemma mvn_square t :
  (quad P0 (t - mu0)%R + dsum P xs t = quad P_post (t - m_post)%R + c_post)%Re.
Proof.
  have PP := P_post_posdef. have U := posdef_unit PP.
  rewrite dsum_expand ?(posdef_sym PD) // !quad_sub ?(posdef_sym PD0) ?(posdef_sym PP) //.
  have ->: quad P_post t = (quad P0 t + INR (size xs) * quad P t)%Re by rewrite /P_post quadDA quadZA.
  have ->: bil P_post t m_post = (bil P0 t mu0 + bil P (vsum xs) t)%Re.
  { rewrite (bilC (vsum xs) t (posdef_sym PD)).
    rewrite /m_post /bil -[LHS]/((t^T *m P_post *m _) 0 0) -mulmxA (mulmxA P_post) mulmxV // mul1mx mulmxDr [LHS]mxE.
    apply: (f_equal2 Rplus); by rewrite mulmxA. }
  rewrite /c_post. ring.
Qed.

Definition mvn_evid : R :=
  (mvn_const (invmx P_post) / (mvn_const (invmx P0) * mvn_const (invmx P) ^ size xs) * exp (- (c_post / 2)))%Re.
Lemma mvn_evid_pos : (0 < mvn_evid)%Re.
Proof.
  have H0 := mvn_const_pos (posdef_inv PD0). have H1 := mvn_const_pos (posdef_inv PD).
  have H2 := mvn_const_pos (posdef_inv P_post_posdef).
  apply: Rmult_lt_0_compat; last exact: exp_pos. apply: Rdiv_lt_0_compat => //.
  apply: Rmult_lt_0_compat => //. exact: pow_lt.
Qed.
Lemma mvn_kernel t :
  (mvn_pdf mu0 (invmx P0) t * mvn_lik (invmx P) xs t = mvn_evid * mvn_pdf m_post (invmx P_post) t)%Re.
Proof.
  have H0 := mvn_const_pos (posdef_inv PD0). have H1 := mvn_const_pos (posdef_inv PD).
  have H2 := mvn_const_pos (posdef_inv P_post_posdef). rewrite -!/(mvn_const _) in H0 H1 H2.
  have H3 := pow_lt _ (size xs) H1.
  rewrite mvn_lik_eq !mvn_pdf_eq !invmxK /mvn_evid.
  have E : (exp (- (quad P0 (t - mu0)%R / 2)) * exp (- (dsum P xs t / 2))
            = exp (- (c_post / 2)) * exp (- (quad P_post (t - m_post)%R / 2)))%Re.
  { rewrite -!exp_plus. f_equal. have := mvn_square t. lra. }
  rewrite /Rdiv.
  transitivity (exp (- (quad P0 (t - mu0)%R / 2)) * exp (- (dsum P xs t / 2))
    * (/ mvn_const (invmx P0) * / mvn_const (invmx P) ^ size xs))%Re; first by rewrite /Rdiv; ring.
  rewrite E /Rdiv. field. repeat split; lra.
Qed.
Lemma mvn_bayes :
  vec_posterior (mvn_pdf mu0 (invmx P0)) (mvn_lik (invmx P) xs) (mvn_pdf m_post (invmx P_post)).
Proof.
  have He := mvn_evid_pos. exists mvn_evid. split=> //. split.
  - have H := is_vec_int_scal mvn_evid (mvn_normalised m_post (posdef_inv P_post_posdef)).
    rewrite Rmult_1_r in H. apply: (is_vec_int_ext _ H) => t. by rewrite mvn_kernel.
  - move=> t. rewrite mvn_kernel. field. lra.
Qed.
End MvnBayes.

(** ** one more observation: the predictive *)
Section Predictive.
Variables (n : nat) (mu0 x : 'cV[R]_n) (cov0 cov : 'M[R]_n).
Hypotheses (PD0 : posdef cov0) (PD : posdef cov).
Let P0 := invmx cov0.
Let P := invmx cov.
Let Q0 : posdef P0 := posdef_inv PD0.
Let Q : posdef P := posdef_inv PD.
Let P' := P0 + P.

Lemma sum_factor : cov0 + cov = cov0 *m P' *m cov.
Proof.
  have U0 := posdef_unit PD0. have U := posdef_unit PD.
  by rewrite /P' mulmxDr mulmxDl mulmxV // mul1mx -mulmxA mulVmx // mulmx1 addrC.
Qed.
Lemma PD' : posdef P'. Proof. exact: posdef_addp. Qed.
Lemma inv_sum : invmx (cov0 + cov) = P *m invmx P' *m P0.
Proof.
  have U0 := posdef_unit PD0. have U := posdef_unit PD. have U' := posdef_unit PD'.
  have US := posdef_unit (posdef_addp PD0 PD).
  rewrite -[RHS](mulKmx US) sum_factor. rewrite -!mulmxA (mulmxA cov P) mulmxV // mul1mx (mulmxA P') mulmxV // mul1mx.
  by rewrite mulmxV // mulmx1.
Qed.
Lemma inv_sum' : invmx (cov0 + cov) = P - P *m invmx P' *m P.
Proof.
  have U' := posdef_unit PD'. rewrite inv_sum. have ->: P0 = P' - P by rewrite /P' addrK.
  by rewrite mulmxBr -(mulmxA P (invmx P') P') mulVmx // mulmx1.
Qed.
Lemma post_one : P_post P0 P [:: x] = P'.
Proof. by rewrite /P_post /= scale1r. Qed.
Lemma m_post_one : m_post mu0 P0 P [:: x] = mu0 + invmx P' *m (P *m (x - mu0)).
Proof.
  have U' := posdef_unit PD'. rewrite /m_post post_one /vsum big_cons big_nil addr0.
  have ->: P0 *m mu0 + P *m x = P' *m mu0 + P *m (x - mu0).
  { rewrite /P' mulmxDl mulmxBr -addrA. congr (_ + _). by rewrite addrC subrK. }
  by rewrite mulmxDr mulmxA mulVmx // mul1mx.
Qed.
Lemma c_one : c_post mu0 P0 P [:: x] = quad (invmx (cov0 + cov)) (x - mu0).
Proof.
  have := mvn_square mu0 [:: x] Q0 Q mu0. rewrite post_one m_post_one subrr quad0.
  rewrite /dsum big_cons big_nil opprD addrA subrr add0r quadN -quad_inv; last exact: PD'.
  rewrite inv_sum'. set r := x - mu0.
  have ->: quad (P - P *m invmx P' *m P) r = (quad P r - quad (invmx P') (P *m r)%R)%Re.
  { rewrite -(quad_congr (invmx P') P) (posdef_sym Q) quad_bil bilDA -scaleN1r bilZA. toR. rewrite -!quad_bil. by rewrite Ropp_mult_distr_l_reverse Rmult_1_l. }
  toR. move=> H. lra.
Qed.
Lemma det_sum : (\det (cov0 + cov) = \det cov0 * \det P' * \det cov)%Re.
Proof. by rewrite sum_factor !det_mulmx. Qed.
Lemma mvn_evid_one : mvn_evid mu0 P0 P [:: x] = mvn_pdf mu0 (cov0 + cov) x.
Proof.
  have HPI := PI_RGT_0.
  rewrite /mvn_evid c_one post_one /mvn_pdf [size _]/= pow_1 /mvn_const /P0 /P !invmxK -/P0 -/P /Rdiv [LHS]Rmult_comm.
  congr (_ * _)%Re. have Hd0 := det_pos PD0. have Hd := det_pos PD. have Hd' := det_pos PD'.
  have Hp : (0 < (2 * PI) ^ n)%Re by apply: pow_lt; lra.
  have HT : (0 < (2 * PI) ^ n * \det (invmx P'))%Re.
  { apply: Rmult_lt_0_compat => //. apply: det_pos. apply: posdef_inv. exact: PD'. }
  have H0 : (0 < (2 * PI) ^ n * \det cov0)%Re by exact: Rmult_lt_0_compat.
  have H1 : (0 < (2 * PI) ^ n * \det cov)%Re by exact: Rmult_lt_0_compat.
  rewrite -sqrt_mult_alt; last exact: Rlt_le.
  rewrite -/(Rdiv _ _) -sqrt_div_alt; last exact: Rmult_lt_0_compat.
  rewrite -sqrt_inv. f_equal. rewrite det_sum. rewrite det_inv RinvE.
  set d' := \det P' in Hd' *. set d0 := \det cov0 in Hd0 *. set d := \det cov in Hd *.
  clearbody d' d0 d. field. repeat split; lra.
Qed.
Lemma mvn_marginal :
  vec_marginal (mvn_pdf mu0 cov0) (fun t => mvn_pdf t cov x) (mvn_pdf mu0 (cov0 + cov) x).
Proof.
  rewrite -mvn_evid_one.
  have H := is_vec_int_scal (mvn_evid mu0 P0 P [:: x])
    (mvn_normalised (m_post mu0 P0 P [:: x]) (posdef_inv (P_post_posdef [:: x] Q0 Q))).
  rewrite Rmult_1_r in H. apply: (is_vec_int_ext _ H) => t.
  rewrite -mvn_kernel // /mvn_lik big_cons big_nil mulr1 /P0 /P !invmxK. exact: Rmult_comm.
Qed.
End Predictive.
