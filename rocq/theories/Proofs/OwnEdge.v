(** The density of compound_gamma at the edge of its support. *)

From Coq Require Import Reals ZArith Lra Lia.
From Coquelicot Require Import Coquelicot.
From Verif Require Import Model.Num Model.Py Model.Dists Model.ScipyDist Model.PyNum.
From Verif Require Import Spec.Special Spec.Densities Spec.OwnDensities Analysis.RealAux Analysis.GammaBeta Analysis.GammaFacts Proofs.Pdfs Proofs.OwnDensities.
Open Scope R_scope.

Lemma scaled_right q : 0 < q -> filterlim (fun x => x / q) (at_right 0) (at_right 0).
Proof.
  intros Hq P [d Hd]. assert (D : 0 < d * q) by (apply Rmult_lt_0_compat; [apply cond_pos|assumption]).
  exists (mkposreal _ D). intros x Hx Px. change (ball 0 d (x / q)) with (ball 0 d (x / q)) in *.
  assert (P2 : 0 < x / q) by (apply Rdiv_lt_0_compat; assumption). apply Hd; [|exact P2].
  unfold ball in *; cbn in *; unfold AbsRing_ball, abs, minus, plus, opp in *; cbn in *.
  rewrite Rabs_pos_eq in * by lra. apply (Rmult_lt_reg_r q); [assumption|]. replace ((x / q + - 0) * q) with (x + -0) by (field; lra). exact Hx.
Qed.
Section Edge.
Variables a b q : R.
Hypothesis (Ha : 0 < a) (Hb : 0 < b) (Hq : 0 < q).

Lemma tail_limit c : filterlim (fun x => Rpower (1 + x / q) c / (q * Beta_fun a b)) (at_right 0) (locally (/ (q * Beta_fun a b))).
Proof.
  pose proof (Beta_fun_pos a b Ha Hb) as B.
  assert (C : continuous (fun x => Rpower (1 + x / q) c / (q * Beta_fun a b)) 0).
  { apply (ex_derive_continuous (fun x => Rpower (1 + x / q) c / (q * Beta_fun a b))). unfold Rpower. auto_derive.
    repeat split; unfold Rdiv; rewrite ?Rmult_0_l; try lra. }
  assert (E : Rpower (1 + 0 / q) c / (q * Beta_fun a b) = / (q * Beta_fun a b)).
  { replace (1 + 0 / q) with 1 by (field; lra). unfold Rpower. rewrite ln_1, Rmult_0_r, exp_0. field. lra. }
  unfold continuous in C. rewrite E in C. intros P HP. specialize (C P HP). destruct C as [d Hd]. exists d. intros y Hy _. now apply Hd.
Qed.
Lemma beta_one : Beta_fun 1 b = / b.
Proof. rewrite Beta_fun_Gamma by lra. rewrite Gamma_fun_1, (Rplus_comm 1 b), Gamma_fun_succ by assumption. field. split; [lra|]. apply Rgt_not_eq, GammaBeta.Gamma_fun_pos. assumption. Qed.

Theorem own_pdf_edge :
  (a = 1 -> own_compound_gamma_pdf 0 a b q = Ok (b / q) /\ filterlim (pdf (C_compound_gamma a b q)) (at_right 0) (locally (b / q))) /\
  (1 < a -> own_compound_gamma_pdf 0 a b q = Ok 0 /\ filterlim (pdf (C_compound_gamma a b q)) (at_right 0) (locally 0)) /\
  (a < 1 -> own_compound_gamma_pdf 0 a b q = Raise ZeroDivisionError).
Proof.
  pose proof (own_den a b q Ha Hb Hq) as D. rewrite own_pdf_unfold by assumption.
  assert (Z : 0 / q = 0) by (unfold Rdiv; ring). rewrite Z, Rplus_0_r, (py_pow_pos 1) by lra.
  assert (O : Rpower 1 (0 - a - b) = 1) by (unfold Rpower; rewrite ln_1, Rmult_0_r; apply exp_0). rewrite O.
  assert (P0 : py_pow 0 (a - 1) = if Rlt_dec (a - 1) 0 then Raise ZeroDivisionError else if Req_EM_T (a - 1) 0 then Ok 1 else Ok 0).
  { unfold py_pow. destruct (Rlt_dec 0 0); [lra|]. destruct (Req_EM_T 0 0); [reflexivity|congruence]. }
  rewrite P0. split; [|split]; intros Ca.
  - destruct (Rlt_dec (a - 1) 0); [lra|]. destruct (Req_EM_T (a - 1) 0); [|lra]. cbn [bind]. rewrite py_div_ok by lra.
    assert (V : / (q * Beta_fun a b) = b / q) by (rewrite Ca, beta_one; field; lra).
    split; [f_equal; rewrite <- V; field; split; [apply Rgt_not_eq, Beta_fun_pos; assumption|lra]|].
    rewrite <- V. eapply filterlim_ext_loc; [|apply (tail_limit (0 - a - b))]. exists (mkposreal 1 Rlt_0_1). intros x _ Px. cbn.
    replace (Rpower (x / q) (a - 1)) with 1; [now rewrite Rmult_1_l|]. rewrite Ca, Rminus_eq_0. symmetry. apply Rpower_O. now apply Rdiv_lt_0_compat.
  - destruct (Rlt_dec (a - 1) 0); [lra|]. destruct (Req_EM_T (a - 1) 0); [lra|]. cbn [bind]. rewrite py_div_ok by lra.
    split; [f_equal; unfold Rdiv; ring|]. apply (filterlim_ext (fun x => Rpower (x / q) (a - 1) * (Rpower (1 + x / q) (0 - a - b) / (q * Beta_fun a b)))).
    { intros x. cbn. unfold Rdiv. ring. }
    replace 0 with (0 * / (q * Beta_fun a b)) at 2 by ring.
    eapply filterlim_comp_2; [|apply (tail_limit (0 - a - b))|apply (filterlim_mult 0 (/ (q * Beta_fun a b)))].
    apply (filterlim_comp _ _ _ (fun x => x / q) (fun y => Rpower y (a - 1)) _ (at_right 0)); [apply (scaled_right q Hq)|]. apply filterlim_Rpower_0. lra.
  - destruct (Rlt_dec (a - 1) 0); [|lra]. reflexivity.
Qed.
End Edge.
