(** docs/examples/bootstrap.md: the predicted maximum of several new observations. *)

From Coq Require Import Reals Lra Lia ZArith.
From Coquelicot Require Import Coquelicot.
From Verif Require Import Model.Num Model.Py Model.Dists Model.ScipyDist Model.Models Model.DocPrograms.
From Verif Require Import Spec.Special Spec.Densities Spec.Bayes Spec.Joint Spec.Normalised Spec.Maximum.
From Verif Require Import Analysis.RealAux Analysis.Improper Analysis.GammaBeta Analysis.GammaFacts Analysis.Dominance.
From Verif Require Import Proofs.Pdfs Proofs.Normalised Proofs.Predictive.
From Coq Require Import List.
Import ListNotations.
Open Scope R_scope.

Lemma all_at_most_pow p k n : all_at_most p k n = sum_n p k ^ n.
Proof.
  induction n as [|n IH]; [reflexivity|]. cbn [all_at_most pow].
  rewrite (sum_n_ext _ (fun x => mult (p x) (all_at_most p k n))) by reflexivity.
  rewrite (sum_n_mult_r (K:=R_Ring)). rewrite IH. reflexivity.
Qed.

(** The graph of a power lies strictly above its tangents. *)
Lemma pow_tangent u m n : 0 <= u -> 0 < m -> m ^ (S n) + INR (S n) * m ^ n * (u - m) <= u ^ (S n).
Proof.
  intros Hu Hm. induction n as [|n IH]; [simpl; lra|].
  assert (E : u ^ S (S n) - m ^ S (S n) - INR (S (S n)) * m ^ S n * (u - m)
    = u * (u ^ S n - m ^ S n - INR (S n) * m ^ n * (u - m)) + INR (S n) * m ^ n * (u - m) ^ 2).
  { rewrite (S_INR (S n)). cbn [pow]. ring. }
  assert (0 <= u * (u ^ S n - m ^ S n - INR (S n) * m ^ n * (u - m))) by (apply Rmult_le_pos; lra).
  assert (0 <= INR (S n) * m ^ n * (u - m) ^ 2).
  { apply Rmult_le_pos; [|apply pow2_ge_0]. apply Rmult_le_pos; [apply pos_INR|]. apply pow_le. lra. }
  lra.
Qed.

Lemma pow_tangent_strict u m n : 0 <= u -> 0 < m -> u <> m -> m ^ (S (S n)) + INR (S (S n)) * m ^ S n * (u - m) < u ^ (S (S n)).
Proof.
  intros Hu Hm D.
  assert (E : u ^ S (S n) - m ^ S (S n) - INR (S (S n)) * m ^ S n * (u - m)
    = u * (u ^ S n - m ^ S n - INR (S n) * m ^ n * (u - m)) + INR (S n) * m ^ n * (u - m) ^ 2).
  { rewrite (S_INR (S n)). cbn [pow]. ring. }
  assert (0 <= u * (u ^ S n - m ^ S n - INR (S n) * m ^ n * (u - m))).
  { apply Rmult_le_pos; auto. pose proof (pow_tangent u m n Hu Hm). lra. }
  assert (0 < INR (S n) * m ^ n * (u - m) ^ 2).
  { apply Rmult_lt_0_compat; [apply Rmult_lt_0_compat|].
    - apply lt_0_INR. lia.
    - now apply pow_lt.
    - apply pow2_gt_0. lra. }
  lra.
Qed.

(** The distribution function of a Poisson in its rate. *)
Definition pois_cdf (k : nat) (lam : R) : R := sum_n (fun j => exp (- lam) * lam ^ j / INR (fact j)) k.

Lemma pois_cdf_deriv k lam : is_derive (pois_cdf k) lam (- (exp (- lam) * lam ^ k / INR (fact k))).
Proof.
  induction k as [|k IH].
  - apply (is_derive_ext (fun l => exp (- l) * l ^ 0 / INR (fact 0))).
    { intros t. unfold pois_cdf. now rewrite sum_O. }
    auto_derive; auto. simpl. field.
  - apply (is_derive_ext (fun l => pois_cdf k l + exp (- l) * l ^ S k / INR (fact (S k)))).
    { intros t. unfold pois_cdf. now rewrite sum_S. }
    assert (P := INR_fact_lt_0 k). assert (0 < INR (S k)) by (apply lt_0_INR; lia).
    replace (- (exp (- lam) * lam ^ S k / INR (fact (S k)))) with
      (- (exp (- lam) * lam ^ k / INR (fact k)) + (exp (- lam) * (INR (S k) * lam ^ k) - exp (- lam) * lam ^ S k) / INR (fact (S k))).
    2:{ rewrite fact_simpl, mult_INR. field. lra. }
    apply (is_derive_plus (V:=R_NormedModule)); [exact IH|].
    assert (N := INR_fact_neq_0 (S k)). revert N. generalize (INR (fact (S k))). intros q N.
    auto_derive; auto. replace (Init.Nat.pred (S k)) with k by reflexivity. cbn [pow]. unfold Rdiv. change (match k with O => 1 | S _ => INR k + 1 end) with (INR (S k)). ring.
Qed.

Lemma pois_cdf_decreasing k x y : 0 < x < y -> pois_cdf k y < pois_cdf k x.
Proof.
  intros H.
  destruct (MVT_gen (pois_cdf k) x y (fun lam => - (exp (- lam) * lam ^ k / INR (fact k)))) as (c & Hc & E).
  { intros c _. apply pois_cdf_deriv. }
  { intros c _. apply continuity_pt_filterlim. apply (ex_derive_continuous (V:=R_NormedModule)). eexists. apply pois_cdf_deriv. }
  rewrite Rmin_left in Hc by lra.
  assert (0 < exp (- c) * c ^ k / INR (fact k)).
  { apply Rdiv_lt_0_compat; [|apply INR_fact_lt_0]. apply Rmult_lt_0_compat; [apply exp_pos|]. apply pow_lt. lra. }
  nra.
Qed.

Lemma pois_cdf_cont k lam : continuous (pois_cdf k) lam.
Proof. apply (ex_derive_continuous (V:=R_NormedModule)). eexists. apply pois_cdf_deriv. Qed.

Lemma pois_cdf_range k lam : 0 < lam -> 0 < pois_cdf k lam <= 1.
Proof.
  intros H. split.
  - unfold pois_cdf. induction k.
    + rewrite sum_O. simpl. pose proof (exp_pos (- lam)). lra.
    + rewrite sum_S. assert (0 < exp (- lam) * lam ^ S k / INR (fact (S k))); [|lra].
      apply Rdiv_lt_0_compat; [|apply INR_fact_lt_0]. apply Rmult_lt_0_compat; [apply exp_pos|]. apply pow_lt. lra.
  - unfold pois_cdf. rewrite (sum_n_ext _ (fun j => pmf (S_poisson lam) (Z.of_nat j))) by (intros; now rewrite poisson_pmf).
    apply (series_partial_le (fun j => pmf (S_poisson lam) (Z.of_nat j)) 1 k); [|apply poisson_series].
    intros j. apply poisson_nonneg. lra.
Qed.

Section Jensen.
Variables (post : R -> R) (k : nat) (m : R).
Hypothesis post_cont : cont_on post (fun t => 0 < t).
Hypothesis post_pos : forall t, 0 < t -> 0 < post t.
Hypothesis post_total : is_RInt_gen post Fpos0 Finf 1.
Hypothesis mean : marginal Fpos0 Finf post (pois_cdf k) m.

Lemma mean_pos : 0 < m.
Proof.
  apply (is_RInt_gen_pos _ _ _ ends_pos (fun t => pois_cdf k t * post t)); auto.
  - intros x Hx. apply (continuous_mult (K:=R_AbsRing)); [apply pois_cdf_cont|auto].
  - intros x Hx. apply Rmult_lt_0_compat; auto. now apply pois_cdf_range.
  - exists 1, 2. lra.
Qed.

Lemma powers_integrable n : exists T, marginal Fpos0 Finf post (fun t => pois_cdf k t ^ n) T.
Proof.
  destruct (dominated_ex_RInt_gen _ _ _ ends_pos (fun t => pois_cdf k t ^ n * post t) post 1) as (T & HT & _); auto.
  - intros x Hx. apply (continuous_mult (K:=R_AbsRing)); [|auto].
    induction n; [apply continuous_const|]. cbn [pow]. apply (continuous_mult (K:=R_AbsRing)); [apply pois_cdf_cont|exact IHn].
  - intros x Hx. pose proof (pois_cdf_range k x Hx). specialize (post_pos x Hx).
    assert (0 <= pois_cdf k x ^ n <= 1). { split; [apply pow_le; lra|]. rewrite <- (pow1 n). apply pow_incr. lra. }
    split; [apply Rmult_le_pos; lra|]. rewrite <- (Rmult_1_l (post x)) at 2. apply Rmult_le_compat_r; lra.
  - now exists T.
Qed.

Lemma jensen n T : marginal Fpos0 Finf post (fun t => pois_cdf k t ^ S (S n)) T -> m ^ S (S n) < T.
Proof.
  intros HT. pose proof mean_pos as Hm. unfold marginal in *.
  set (N := S (S n)) in *. set (slope := INR N * m ^ S n).
  set (h := fun t => (pois_cdf k t ^ N - (m ^ N + slope * (pois_cdf k t - m))) * post t).
  assert (Hh : is_RInt_gen h Fpos0 Finf (T - m ^ N)).
  { apply (is_RInt_gen_ext_on _ _ _ ends_pos (fun t => pois_cdf k t ^ N * post t - (slope * (pois_cdf k t * post t) + (m ^ N - slope * m) * post t))).
    - intros x Hx. unfold h. ring.
    - apply (eq_ind (T - (slope * m + (m ^ N - slope * m) * 1)) (is_RInt_gen _ _ _)); [|ring].
      apply (is_RInt_gen_minus_R Fpos0 Finf); [exact HT|]. apply (is_RInt_gen_plus_R Fpos0 Finf); apply (is_RInt_gen_mult_l Fpos0 Finf); assumption. }
  assert (Ch : cont_on h (fun t => 0 < t)).
  { intros x Hx. apply (continuous_mult (K:=R_AbsRing)); [|auto].
    apply (ex_derive_continuous (V:=R_NormedModule)). assert (D : ex_derive (pois_cdf k) x) by (eexists; apply pois_cdf_deriv). unfold N. auto_derive; auto. }
  assert (Ph : forall x, 0 < x -> 0 <= h x).
  { intros x Hx. apply Rmult_le_pos; [|specialize (post_pos x Hx); lra]. pose proof (pois_cdf_range k x Hx).
    pose proof (pow_tangent (pois_cdf k x) m (S n)). unfold slope, N. lra. }
  assert (Sh : forall x, 0 < x -> pois_cdf k x <> m -> 0 < h x).
  { intros x Hx D. apply Rmult_lt_0_compat; [|now apply post_pos]. pose proof (pois_cdf_range k x Hx).
    pose proof (pow_tangent_strict (pois_cdf k x) m n). unfold slope, N. lra. }
  assert (0 < T - m ^ N); [|lra].
  destruct (Rle_or_lt (pois_cdf k (3 / 2)) m) as [L|L].
  - apply (positive_inside _ _ _ ends_pos h _ (3 / 2) 2); auto; try lra.
    intros x Hx. apply Sh; [lra|]. pose proof (pois_cdf_decreasing k (3 / 2) x). lra.
  - apply (positive_inside _ _ _ ends_pos h _ 1 (3 / 2)); auto; try lra.
    intros x Hx. apply Sh; [lra|]. pose proof (pois_cdf_decreasing k x (3 / 2)). lra.
Qed.
End Jensen.

Lemma fold_left_sum l : forall a, fold_left Rplus l a = a + sumR l.
Proof. induction l as [|x l IH]; intros a; simpl; [unfold sumR; simpl; lra|]. rewrite IH. unfold sumR. simpl. lra. Qed.

Lemma maximum_overstated (data : list R) (prior : Gamma R) (k : nat) :
  0 < Gamma_alpha prior -> 0 < Gamma_beta prior -> List.Forall (fun x => 0 <= x) data ->
  let posterior := pdf (Gamma_dist (poisson_gamma (sumR data) (INR (length data)) prior)) in
  let page := pmf (NegativeBinomial_dist (get_posterior_predictive data prior)) in
  let poisson lam x := pmf (Poisson_dist (mkPoisson lam)) (Z.of_nat x) in
  (forall x, marginal Fpos0 Finf posterior (fun lam => poisson lam x) (page (Z.of_nat x))) /\
  forall n, exists right, marginal Fpos0 Finf posterior (fun lam => all_at_most (poisson lam) k n) right /\
  (n = 1%nat -> all_at_most (fun x => page (Z.of_nat x)) k n = right) /\
  ((2 <= n)%nat -> all_at_most (fun x => page (Z.of_nat x)) k n < right).
Proof.
  intros Ha Hb Hd posterior page poisson. destruct prior as [a b]. cbn [Gamma_alpha Gamma_beta] in Ha, Hb.
  set (a' := a + sumR data). set (b' := b + INR (length data)).
  assert (Hs : 0 <= sumR data). { clear -Hd. induction Hd; unfold sumR in *; simpl; lra. }
  assert (Ha' : 0 < a') by (unfold a'; lra). assert (Hb' : 0 < b') by (unfold b'; pose proof (pos_INR (length data)); lra).
  assert (Ep : posterior = pdf (Gamma_dist (mkGamma a' b'))) by reflexivity.
  assert (Eg : page = pmf (S_nbinom a' (b' / (1 + b')))).
  { unfold page, get_posterior_predictive. rewrite fold_left_sum, Rplus_0_l. unfold poisson_gamma, poisson_gamma_predictive, NegativeBinomial_dist.
    cbn [NegativeBinomial_n NegativeBinomial_p Gamma_alpha Gamma_beta get_poisson_gamma_posterior_params]. cbn -[pmf Rplus INR IZR Rdiv]. now rewrite Rmult_1_l. }
  assert (M : forall x, marginal Fpos0 Finf posterior (fun lam => poisson lam x) (page (Z.of_nat x))).
  { intros x. rewrite Ep, Eg. pose proof (poisson_gamma_marginal a' b' 1 x Ha' Hb' Rlt_0_1) as Q. unfold marginal in *.
    revert Q. apply (is_RInt_gen_ext_on _ _ _ ends_pos). intros t _. now rewrite Rmult_1_l. }
  split; [exact M|]. intros n.
  set (f := fun t => Rpower t (a' - 1) * exp (- (b' * t))).
  set (c := Rpower b' a' / Gamma_fun a').
  assert (Pc : 0 < c) by (apply Rdiv_lt_0_compat; [apply exp_pos|now apply Gamma_fun_pos]).
  assert (Ek : forall t, 0 < t -> posterior t = c * f t). { intros t Ht. rewrite Ep. now apply gamma_pdf. }
  assert (Cp : cont_on (fun t => c * f t) (fun t => 0 < t)).
  { intros x Hx. apply (continuous_mult (K:=R_AbsRing)); [apply continuous_const|].
    apply (continuous_mult (K:=R_AbsRing)); [now apply continuous_Rpower|].
    apply (ex_derive_continuous (V:=R_NormedModule)). auto_derive; auto. }
  assert (Pp : forall t, 0 < t -> 0 < c * f t).
  { intros t Ht. apply Rmult_lt_0_compat; auto. apply Rmult_lt_0_compat; apply exp_pos. }
  assert (Tp : is_RInt_gen (fun t => c * f t) Fpos0 Finf 1).
  { apply (is_RInt_gen_ext_on _ _ _ ends_pos posterior); auto. rewrite Ep. now apply (Gamma_density (mkGamma a' b')). }
  set (m := sum_n (fun x => page (Z.of_nat x)) k).
  assert (Em : forall t, sum_n (poisson t) k = pois_cdf k t).
  { intros t. unfold pois_cdf, poisson, Poisson_dist. cbn [Poisson_lam]. apply sum_n_ext. intros j. now rewrite poisson_pmf. }
  assert (Mm : marginal Fpos0 Finf (fun t => c * f t) (pois_cdf k) m).
  { pose proof (sum_mixture (fun x lam => poisson lam x) (fun x => page (Z.of_nat x)) posterior Fpos0 Finf k M) as Q. unfold marginal in *.
    revert Q. apply (is_RInt_gen_ext_on _ _ _ ends_pos). intros t Ht. rewrite Ek by auto. f_equal. apply (Em t). }
  destruct (powers_integrable (fun t => c * f t) k Cp Pp Tp n) as (T & HT). exists T. split; [|split].
  - unfold marginal in *. revert HT. apply (is_RInt_gen_ext_on _ _ _ ends_pos). intros t Ht.
    rewrite Ek, all_at_most_pow by auto. now rewrite <- Em.
  - intros ->. rewrite all_at_most_pow, pow_1. fold m. unfold marginal in *.
    apply (is_RInt_gen_unique_on _ _ _ ends_pos (fun t => pois_cdf k t * (c * f t)) m T); auto.
    revert HT. apply (is_RInt_gen_ext_on _ _ _ ends_pos). intros t _. now rewrite pow_1.
  - intros Hn. rewrite all_at_most_pow. fold m. destruct n as [|[|n]]; [lia|lia|].
    exact (jensen (fun t => c * f t) k m Cp Pp Tp Mm n T HT).
Qed.

Lemma one_count (data : list R) (prior : Gamma R) : 0 < Gamma_alpha prior -> 0 < Gamma_beta prior -> List.Forall (fun x => 0 <= x) data ->
  forall x : nat, marginal Fpos0 Finf (pdf (Gamma_dist (poisson_gamma (sumR data) (INR (length data)) prior)))
    (fun lam => pmf (Poisson_dist (mkPoisson lam)) (Z.of_nat x))
    (pmf (NegativeBinomial_dist (get_posterior_predictive data prior)) (Z.of_nat x)).
Proof. intros Ha Hb Hd. apply (maximum_overstated data prior 0 Ha Hb Hd). Qed.

Lemma several_counts (data : list R) (prior : Gamma R) (k n : nat) :
  0 < Gamma_alpha prior -> 0 < Gamma_beta prior -> List.Forall (fun x => 0 <= x) data -> (2 <= n)%nat ->
  let posterior := pdf (Gamma_dist (poisson_gamma (sumR data) (INR (length data)) prior)) in
  let page := all_at_most (fun x => pmf (NegativeBinomial_dist (get_posterior_predictive data prior)) (Z.of_nat x)) k n in
  let given lam := all_at_most (fun x => pmf (Poisson_dist (mkPoisson lam)) (Z.of_nat x)) k n in
  exists right, marginal Fpos0 Finf posterior given right /\ page < right /\ ~ marginal Fpos0 Finf posterior given page.
Proof.
  intros Ha Hb Hd Hn posterior page given.
  destruct (proj2 (maximum_overstated data prior k Ha Hb Hd) n) as (T & HT & _ & L). exists T.
  split; [exact HT|]. split; [now apply L|]. intros C. specialize (L Hn).
  enough (page = T) by (unfold page in *; lra).
  exact (is_RInt_gen_unique_on _ _ _ ends_pos _ _ _ C HT).
Qed.
