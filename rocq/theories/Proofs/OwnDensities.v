(** The densities of compound_gamma and beta_geometric, computed with Python's
    numbers, inside and outside the support. *)

From Coq Require Import Reals ZArith Lra Lia.
From Verif Require Import Model.Num Model.Py Model.Dists Model.ScipyDist Model.PyNum.
From Verif Require Import Spec.Special Spec.Densities Spec.OwnDensities Analysis.GammaBeta Analysis.GammaFacts Proofs.Pdfs.
Open Scope R_scope.

Lemma py_pow_pos x y : 0 < x -> py_pow x y = Ok (Rpower x y).
Proof.
  intros H. unfold py_pow. destruct (Rlt_dec x 0) as [L|_]; [exfalso; lra|].
  destruct (Req_EM_T x 0) as [L|_]; [exfalso; lra|reflexivity].
Qed.
Lemma py_pow_int x z : x < 0 -> py_pow x (IZR z) = Ok (powerRZ x z).
Proof.
  intros H. unfold py_pow. destruct (Rlt_dec x 0) as [_|L]; [|exfalso; lra].
  rewrite Int_part_IZR. destruct (Req_EM_T (IZR z) (IZR z)) as [_|L]; [reflexivity|congruence].
Qed.
Lemma py_pow_complex x y : x < 0 -> (forall z, y <> IZR z) -> py_pow x y = Raise ComplexResult.
Proof.
  intros H N. unfold py_pow. destruct (Rlt_dec x 0) as [_|L]; [|exfalso; lra].
  destruct (Req_EM_T y (IZR (Int_part y))) as [E|_]; [|reflexivity]. now apply N in E.
Qed.
Lemma py_div_ok x y : y <> 0 -> py_div x y = Ok (x / y).
Proof. intros H. unfold py_div. destruct (Req_EM_T y 0); [contradiction|reflexivity]. Qed.

Lemma own_pdf_unfold x a b q : 0 < q ->
  own_compound_gamma_pdf x a b q =
  (let* u := py_pow (x / q) (a - 1) in let* v := py_pow (1 + x / q) (0 - a - b) in
   py_div (u * v) (q * Beta_fun a b)).
Proof.
  intros Hq. unfold own_compound_gamma_pdf, compound_gamma_pdf.
  cbn [npow ndiv nmul nadd nsub nlit NumPy]. unfold py2. cbn [bind]. rewrite !py_div_ok by lra. cbn [bind].
  destruct (py_pow (x / q) (a - 1)); cbn [bind]; [|reflexivity].
  destruct (py_pow (1 + x / q) (0 - a - b)); reflexivity.
Qed.

Section Compound.
Variables a b q : R.
Hypothesis (Ha : 0 < a) (Hb : 0 < b) (Hq : 0 < q).

Lemma own_den : 0 < q * Beta_fun a b.
Proof. apply Rmult_lt_0_compat; [assumption|]. now apply Beta_fun_pos. Qed.

Lemma own_pdf_support x : 0 < x -> own_compound_gamma_pdf x a b q = Ok (pdf (C_compound_gamma a b q) x).
Proof.
  intros Hx. pose proof own_den as D. rewrite own_pdf_unfold by assumption.
  assert (P : 0 < x / q) by (now apply Rdiv_lt_0_compat).
  rewrite !py_pow_pos by lra. cbn [bind]. rewrite py_div_ok by lra. reflexivity.
Qed.

Lemma own_pdf_left x v : - q < x < 0 -> py_pow (x / q) (a - 1) = Ok v ->
  exists w, own_compound_gamma_pdf x a b q = Ok w /\ exists c, 0 < c /\ w = v * c.
Proof.
  intros Hx E. pose proof own_den as D. rewrite own_pdf_unfold by assumption. rewrite E.
  assert (P : 0 < 1 + x / q).
  { replace (1 + x / q) with ((q + x) / q) by (field; lra). apply Rdiv_lt_0_compat; lra. }
  rewrite py_pow_pos by assumption. cbn [bind]. rewrite py_div_ok by lra. eexists. split; [reflexivity|].
  exists (Rpower (1 + x / q) (0 - a - b) / (q * Beta_fun a b)). split.
  - apply Rdiv_lt_0_compat; [apply exp_pos|assumption].
  - field. split; [apply Rgt_not_eq, Beta_fun_pos; assumption|lra].
Qed.

Lemma left_neg x : - q < x < 0 -> x / q < 0.
Proof. intros H. unfold Rdiv. apply Rmult_lt_reg_r with q; [assumption|]. rewrite Rmult_assoc, Rinv_l, Rmult_0_l; lra. Qed.

Lemma own_pdf_even x m : a = INR (2 * S m) -> - q < x < 0 ->
  exists w, own_compound_gamma_pdf x a b q = Ok w /\ w < 0.
Proof.
  intros E Hx. pose proof (left_neg x Hx) as N.
  assert (X : a - 1 = IZR (Z.of_nat (S (2 * m)))).
  { rewrite E, <- INR_IZR_INZ. replace (2 * S m)%nat with (S (S (2 * m))) by lia. rewrite (S_INR (S _)). ring. }
  destruct (own_pdf_left x (powerRZ (x / q) (Z.of_nat (S (2 * m)))) Hx) as (w & Ew & c & Hc & Ec).
  { rewrite X. now apply py_pow_int. }
  exists w. split; [assumption|]. rewrite Ec, <- pow_powerRZ. cbn [pow]. rewrite pow_mult.
  revert N. clear - Hc. generalize (x / q). intros u N.
  assert (P : 0 < (u ^ 2) ^ m) by (apply pow_lt; assert (0 < u * u) by nra; lra). revert P. generalize ((u ^ 2) ^ m). intros v P.
  assert (0 < v * c) by now apply Rmult_lt_0_compat.
  nra.
Qed.
Lemma own_pdf_odd x m : a = INR (S (2 * m)) -> - q < x < 0 ->
  exists w, own_compound_gamma_pdf x a b q = Ok w /\ 0 < w.
Proof.
  intros E Hx. pose proof (left_neg x Hx) as N.
  assert (X : a - 1 = IZR (Z.of_nat (2 * m))).
  { rewrite E, <- INR_IZR_INZ, S_INR. ring. }
  destruct (own_pdf_left x (powerRZ (x / q) (Z.of_nat (2 * m))) Hx) as (w & Ew & c & Hc & Ec).
  { rewrite X. now apply py_pow_int. }
  exists w. split; [assumption|]. rewrite Ec, <- pow_powerRZ. rewrite pow_mult.
  revert N. clear - Hc. generalize (x / q). intros u N.
  assert (P : 0 < (u ^ 2) ^ m) by (apply pow_lt; assert (0 < u * u) by nra; lra). revert P. generalize ((u ^ 2) ^ m). intros v P.
  assert (0 < v * c) by now apply Rmult_lt_0_compat.
  nra.
Qed.
Lemma own_pdf_complex x : (forall z, a <> IZR z) -> - q < x < 0 ->
  own_compound_gamma_pdf x a b q = Raise ComplexResult.
Proof.
  intros E Hx. pose proof (left_neg x Hx) as N. rewrite own_pdf_unfold by assumption.
  rewrite py_pow_complex; [reflexivity|assumption|].
  intros z Z. apply (E (z + 1)%Z). rewrite plus_IZR. lra.
Qed.
End Compound.

Lemma own_pdf_off_support (a b q : R) : 0 < a -> 0 < b -> 0 < q -> forall x, - q < x < 0 ->
  (forall m, a = INR (2 * S m) -> exists w, own_compound_gamma_pdf x a b q = Ok w /\ w < 0) /\
  (forall m, a = INR (S (2 * m)) -> exists w, own_compound_gamma_pdf x a b q = Ok w /\ 0 < w) /\
  ((forall z, a <> IZR z) -> own_compound_gamma_pdf x a b q = Raise ComplexResult).
Proof.
  intros Ha Hb Hq x Hx. repeat split; intros; [now apply own_pdf_even with m|now apply own_pdf_odd with m|now apply own_pdf_complex].
Qed.

(** The mass beta_geometric puts one place below its support *)
Lemma own_pmf_below (d : BetaGeometric R) : 0 < BetaGeometric_alpha d -> 0 < BetaGeometric_beta d ->
  pmf (BetaGeometric_dist d) ((if BetaGeometric_one_start d then 1 else 0) - 1)
    = BetaGeometric_alpha d / (BetaGeometric_alpha d + BetaGeometric_beta d) /\
  0 < BetaGeometric_alpha d / (BetaGeometric_alpha d + BetaGeometric_beta d).
Proof.
  destruct d as [a b o]; simpl BetaGeometric_alpha; simpl BetaGeometric_beta; simpl BetaGeometric_one_start. intros Ha Hb.
  split; [|apply Rdiv_lt_0_compat; lra].
  unfold BetaGeometric_dist, pmf, beta_geometric_pmf. cbn [nadd ndiv nlit NumR BetaGeometric_alpha BetaGeometric_beta BetaGeometric_one_start].
  pose proof (Beta_fun_pos a b Ha Hb).
  replace (Beta_fun (a + 1) _) with (Beta_fun (a + 1) b).
  - rewrite Beta_fun_succ_l by assumption. field. lra.
  - f_equal. destruct o; simpl; ring.
Qed.
