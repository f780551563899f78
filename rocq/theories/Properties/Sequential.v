(** C28-C31: sequential updating, parameter domains, shrinkage. *)

From Coq Require Import Reals Lra Psatz ZArith Lia Permutation.
From Coquelicot Require Import Coquelicot.
From Verif Require Import Model.Num Model.Py Model.Dists Model.ScipyDist Model.Models.
From Verif Require Import Spec.Special Spec.Densities Spec.Bayes Spec.Joint Spec.History Spec.Moments.
From Verif Require Import Analysis.GammaFacts Proofs.Conj Proofs.Seq Proofs.Moments Proofs.Domain.
From Coq Require Import List.
Import ListNotations.
Open Scope R_scope.

Ltac side := simpl; repeat constructor; simpl; try lra; try lia.

(** C28: binomial_beta *)
Theorem C28_binomial_beta_sequential :
  forall (bs bs' : list (R * R)) (prior : Beta R), Permutation bs bs' ->
  let total := binomial_beta (sumR (map fst bs)) (sumR (map snd bs)) prior in
  fold_left (fun p b => binomial_beta (fst b) (snd b) p) bs prior = total /\
  fold_left (fun p b => binomial_beta (fst b) (snd b) p) bs' prior = total /\
  binomial_beta 0 0 prior = prior.
Proof. intros bs bs' prior. exact (seq_full (fun x y p => binomial_beta x y p) (binomial_beta_seq) bs bs' prior). Qed.

Print Assumptions C28_binomial_beta_sequential.

Example C28_case :
  binomial_beta 5 1 (binomial_beta 3 2 (mkBeta 1 1)) = binomial_beta 8 3 (mkBeta 1 1) /\ Permutation [(3, 2); (5, 1)] [(5, 1); (3, 2)].
Proof. split. unfold binomial_beta; simpl; f_equal; ring. constructor. Qed.

(** C28: bernoulli_beta one outcome at a time is binomial_beta on the totals. *)
Theorem C28_bernoulli_beta_sequential :
  forall xs prior,
  fold_left (fun p x => bernoulli_beta x p) xs prior = binomial_beta (INR (length xs)) (sumR xs) prior.
Proof. exact bernoulli_beta_seq. Qed.

Example C28_case_bernoulli :
  fold_left (fun p x => bernoulli_beta x p) [1; 0; 1] (mkBeta 1 1) = mkBeta 3 2.
Proof. unfold bernoulli_beta, binomial_beta; simpl; f_equal; ring. Qed.

Print Assumptions C28_bernoulli_beta_sequential.

(** C28: negative_binomial_beta *)
Theorem C28_negative_binomial_beta_sequential :
  forall (r : R) (bs bs' : list (R * R)) (prior : Beta R), Permutation bs bs' ->
  let total := negative_binomial_beta r (sumR (map fst bs)) (sumR (map snd bs)) prior in
  fold_left (fun p b => negative_binomial_beta r (fst b) (snd b) p) bs prior = total /\
  fold_left (fun p b => negative_binomial_beta r (fst b) (snd b) p) bs' prior = total /\
  negative_binomial_beta r 0 0 prior = prior.
Proof. intros r bs bs' prior. exact (seq_full (fun x y p => negative_binomial_beta r x y p) (negative_binomial_beta_seq r) bs bs' prior). Qed.

Example C28_case_negative_binomial :
  fold_left (fun p b => negative_binomial_beta 2 (fst b) (snd b) p) [(3, 4); (1, 5)] (mkBeta 1 1) = mkBeta 9 10.
Proof. unfold negative_binomial_beta; simpl; f_equal; field. Qed.

Print Assumptions C28_negative_binomial_beta_sequential.

(** C28: geometric_beta *)
Theorem C28_geometric_beta_sequential :
  forall (one_start : bool) (bs bs' : list (R * R)) (prior : Beta R), Permutation bs bs' ->
  let total := geometric_beta (sumR (map fst bs)) (sumR (map snd bs)) prior one_start in
  fold_left (fun p b => geometric_beta (fst b) (snd b) p one_start) bs prior = total /\
  fold_left (fun p b => geometric_beta (fst b) (snd b) p one_start) bs' prior = total /\
  geometric_beta 0 0 prior one_start = prior.
Proof. intros one_start bs bs' prior. exact (seq_full (fun x y p => geometric_beta x y p one_start) (geometric_beta_seq one_start) bs bs' prior). Qed.

Example C28_case_geometric :
  fold_left (fun p b => geometric_beta (fst b) (snd b) p true) [(6, 2); (7, 3)] (mkBeta 1 1) = mkBeta 6 9.
Proof. unfold geometric_beta; simpl; f_equal; field. Qed.

Print Assumptions C28_geometric_beta_sequential.

(** C28: poisson_gamma *)
Theorem C28_poisson_gamma_sequential :
  forall (bs bs' : list (R * R)) (prior : Gamma R), Permutation bs bs' ->
  let total := poisson_gamma (sumR (map fst bs)) (sumR (map snd bs)) prior in
  fold_left (fun p b => poisson_gamma (fst b) (snd b) p) bs prior = total /\
  fold_left (fun p b => poisson_gamma (fst b) (snd b) p) bs' prior = total /\
  poisson_gamma 0 0 prior = prior.
Proof. intros bs bs' prior. exact (seq_full (fun x y p => poisson_gamma x y p) (poisson_gamma_seq) bs bs' prior). Qed.

Example C28_case_poisson :
  fold_left (fun p b => poisson_gamma (fst b) (snd b) p) [(6, 2); (7, 3)] (mkGamma 1 1) = mkGamma 14 6.
Proof. unfold poisson_gamma, get_poisson_gamma_posterior_params; simpl; f_equal; field. Qed.

Print Assumptions C28_poisson_gamma_sequential.

(** C28: exponential_gamma *)
Theorem C28_exponential_gamma_sequential :
  forall (bs bs' : list (R * R)) (prior : Gamma R), Permutation bs bs' ->
  let total := exponential_gamma (sumR (map fst bs)) (sumR (map snd bs)) prior in
  fold_left (fun p b => exponential_gamma (fst b) (snd b) p) bs prior = total /\
  fold_left (fun p b => exponential_gamma (fst b) (snd b) p) bs' prior = total /\
  exponential_gamma 0 0 prior = prior.
Proof. intros bs bs' prior. exact (seq_full (fun x y p => exponential_gamma x y p) (exponential_gamma_seq) bs bs' prior). Qed.

(** The code adds the total to alpha and the count to beta, as for the Poisson; being sequential does not make that right. *)
Example C28_case_exponential :
  fold_left (fun p b => exponential_gamma (fst b) (snd b) p) [(6, 2); (7, 3)] (mkGamma 1 1) = mkGamma 14 6.
Proof. unfold exponential_gamma, get_exponential_gamma_posterior_params, get_poisson_gamma_posterior_params; simpl; f_equal; field. Qed.

Print Assumptions C28_exponential_gamma_sequential.

(** C28: gamma_known_shape *)
Theorem C28_gamma_known_shape_sequential :
  forall (alpha : R) (bs bs' : list (R * R)) (prior : Gamma R), Permutation bs bs' ->
  let total := gamma_known_shape (sumR (map fst bs)) (sumR (map snd bs)) alpha prior in
  fold_left (fun p b => gamma_known_shape (fst b) (snd b) alpha p) bs prior = total /\
  fold_left (fun p b => gamma_known_shape (fst b) (snd b) alpha p) bs' prior = total /\
  gamma_known_shape 0 0 alpha prior = prior.
Proof. intros alpha bs bs' prior. exact (seq_full (fun x y p => gamma_known_shape x y alpha p) (gamma_known_shape_seq alpha) bs bs' prior). Qed.

Example C28_case_gamma_known_shape :
  fold_left (fun p b => gamma_known_shape (fst b) (snd b) 2 p) [(6, 2); (7, 3)] (mkGamma 1 1) = mkGamma 11 14.
Proof. unfold gamma_known_shape; simpl; f_equal; field. Qed.

Print Assumptions C28_gamma_known_shape_sequential.

(** C28: inverse_gamma_known_rate *)
Theorem C28_inverse_gamma_known_rate_sequential :
  forall (alpha : R) (bs bs' : list (R * R)) (prior : Gamma R), Permutation bs bs' ->
  let total := inverse_gamma_known_rate (sumR (map fst bs)) (sumR (map snd bs)) alpha prior in
  fold_left (fun p b => inverse_gamma_known_rate (fst b) (snd b) alpha p) bs prior = total /\
  fold_left (fun p b => inverse_gamma_known_rate (fst b) (snd b) alpha p) bs' prior = total /\
  inverse_gamma_known_rate 0 0 alpha prior = prior.
Proof. intros alpha bs bs' prior. exact (seq_full (fun x y p => inverse_gamma_known_rate x y alpha p) (inverse_gamma_known_rate_seq alpha) bs bs' prior). Qed.

Example C28_case_inverse_gamma :
  fold_left (fun p b => inverse_gamma_known_rate (fst b) (snd b) 2 p) [(6, 2); (7, 3)] (mkGamma 1 1) = mkGamma 11 14.
Proof. unfold inverse_gamma_known_rate; simpl; f_equal; field. Qed.

Print Assumptions C28_inverse_gamma_known_rate_sequential.

(** C28: weibull *)
Theorem C28_weibull_sequential :
  forall (bs bs' : list (R * R)) (prior : InverseGamma R), Permutation bs bs' ->
  let total := weibull_inverse_gamma_known_shape (sumR (map fst bs)) (sumR (map snd bs)) prior in
  fold_left (fun p b => weibull_inverse_gamma_known_shape (fst b) (snd b) p) bs prior = total /\
  fold_left (fun p b => weibull_inverse_gamma_known_shape (fst b) (snd b) p) bs' prior = total /\
  weibull_inverse_gamma_known_shape 0 0 prior = prior.
Proof. intros bs bs' prior. exact (seq_full (fun x y p => weibull_inverse_gamma_known_shape x y p) (weibull_seq) bs bs' prior). Qed.

Example C28_case_weibull :
  fold_left (fun p b => weibull_inverse_gamma_known_shape (fst b) (snd b) p) [(2, 6); (3, 7)] (mkInverseGamma 1 1) = mkInverseGamma 6 14.
Proof. unfold weibull_inverse_gamma_known_shape; simpl; f_equal; field. Qed.

Print Assumptions C28_weibull_sequential.

(** C28: pareto_gamma *)
Theorem C28_pareto_gamma_sequential :
  forall (log : R -> R) (x_m : R) (bs bs' : list (R * R)) (prior : Gamma R), Permutation bs bs' ->
  let total := pareto_gamma log (sumR (map fst bs)) (sumR (map snd bs)) x_m prior in
  fold_left (fun p b => pareto_gamma log (fst b) (snd b) x_m p) bs prior = total /\
  fold_left (fun p b => pareto_gamma log (fst b) (snd b) x_m p) bs' prior = total /\
  pareto_gamma log 0 0 x_m prior = prior.
Proof. intros log x_m bs bs' prior. exact (seq_full (fun x y p => pareto_gamma log x y x_m p) (pareto_gamma_seq log x_m) bs bs' prior). Qed.

Example C28_case_pareto_gamma :
  fold_left (fun p b => pareto_gamma ln (fst b) (snd b) (exp 1) p) [(2, 6); (3, 7)] (mkGamma 1 1) = mkGamma 6 9.
Proof. unfold pareto_gamma; simpl; rewrite ?ln_exp; f_equal; field. Qed.

Print Assumptions C28_pareto_gamma_sequential.

(** C28: von_mises_known_direction *)
Theorem C28_von_mises_known_direction_sequential :
  forall (bs bs' : list (R * R)) (prior : VonMisesKnownDirectionProportional R), Permutation bs bs' ->
  let total := von_mises_known_direction (sumR (map fst bs)) (sumR (map snd bs)) prior in
  fold_left (fun p b => von_mises_known_direction (fst b) (snd b) p) bs prior = total /\
  fold_left (fun p b => von_mises_known_direction (fst b) (snd b) p) bs' prior = total /\
  von_mises_known_direction 0 0 prior = prior.
Proof. intros bs bs' prior. exact (seq_full (fun x y p => von_mises_known_direction x y p) (von_mises_known_direction_seq) bs bs' prior). Qed.

Example C28_case_von_mises :
  fold_left (fun p b => von_mises_known_direction (fst b) (snd b) p) [(1, 2); (-1, 3)] (mkVonMisesKnownDirectionProportional 1 1) = mkVonMisesKnownDirectionProportional 6 1.
Proof. unfold von_mises_known_direction; simpl; f_equal; field. Qed.

Print Assumptions C28_von_mises_known_direction_sequential.

(** C28: normal_known_variance *)
Theorem C28_normal_known_variance_sequential :
  forall var (bs bs' : list (R * R)) (prior : Normal R),
  0 < var -> 0 < Normal_sigma prior -> Forall (fun b => 0 <= snd b) bs -> Permutation bs bs' ->
  fold_left (fun p b => normal_known_variance (fst b) (snd b) var p) bs prior =
  normal_known_variance (sumR (map fst bs)) (sumR (map snd bs)) var prior /\
  fold_left (fun p b => normal_known_variance (fst b) (snd b) var p) bs' prior =
  normal_known_variance (sumR (map fst bs)) (sumR (map snd bs)) var prior /\
  normal_known_variance 0 0 var prior = prior.
Proof. exact normal_known_variance_reorder. Qed.

Example C28_case_normal :
  Forall (fun b => 0 <= snd b) [(3, 2); (4, 1)] /\ Normal_mu (normal_known_variance 4 1 1 (normal_known_variance 3 2 1 (mkNormal 1 1))) = 2.
Proof. split. side. rewrite <- (Rmult_1_l (Normal_mu _)).
  pose proof (normal_known_variance_seq 1 [(3, 2); (4, 1)] (mkNormal 1 1)) as H. cbn [fold_left fst snd] in H. rewrite H; [simpl; field|simpl; lra|simpl; lra|side]. Qed.

Print Assumptions C28_normal_known_variance_sequential.

(** C28: normal_known_precision *)
Theorem C28_normal_known_precision_sequential :
  forall precision (bs bs' : list (R * R)) (prior : Normal R),
  0 < precision -> 0 < Normal_sigma prior -> Forall (fun b => 0 <= snd b) bs -> Permutation bs bs' ->
  fold_left (fun p b => normal_known_precision (fst b) (snd b) precision p) bs prior =
  normal_known_precision (sumR (map fst bs)) (sumR (map snd bs)) precision prior /\
  fold_left (fun p b => normal_known_precision (fst b) (snd b) precision p) bs' prior =
  normal_known_precision (sumR (map fst bs)) (sumR (map snd bs)) precision prior /\
  normal_known_precision 0 0 precision prior = prior.
Proof. exact normal_known_precision_reorder. Qed.

Example C28_case_precision :
  0 < 2 /\ 0 < Normal_sigma (mkNormal 1 1) /\ Forall (fun b => 0 <= snd b) [(3, 2); (4, 1)].
Proof. side. Qed.

Print Assumptions C28_normal_known_precision_sequential.

(** C28: normal_known_mean, both families *)
Theorem C28_normal_known_mean_sequential :
  forall mu (bs bs' : list (R * R * R)) (prior : VariancePrior R),
  variance_ok prior -> Forall (fun b => 0 <= snd b) bs -> Permutation bs bs' ->
  let total := normal_known_mean (sumR (map (fun b => fst (fst b)) bs)) (sumR (map (fun b => snd (fst b)) bs)) (sumR (map snd bs)) mu prior in
  fold_left (fun p b => normal_known_mean (fst (fst b)) (snd (fst b)) (snd b) mu p) bs prior = total /\
  fold_left (fun p b => normal_known_mean (fst (fst b)) (snd (fst b)) (snd b) mu p) bs' prior = total /\
  normal_known_mean 0 0 0 mu prior = prior.
Proof. exact normal_known_mean_reorder. Qed.

Example C28_case_known_mean :
  variance_ok (VSICS (mkScaledInverseChiSquared 1 2)) /\ Forall (fun b => 0 <= snd b) [(3, 5, 2); (4, 16, 1)].
Proof. simpl. split. lra. side. Qed.

Print Assumptions C28_normal_known_mean_sequential.

(** C28: gamma *)
Theorem C28_gamma_sequential :
  forall (bs bs' : list (R * R * R)) (prior : GammaProportional R),
  Permutation bs bs' ->
  let total := gamma (sumR (map (fun b => fst (fst b)) bs)) (prodR (map (fun b => snd (fst b)) bs)) (sumR (map snd bs)) prior in
  fold_left (fun p b => gamma (fst (fst b)) (snd (fst b)) (snd b) p) bs prior = total /\
  fold_left (fun p b => gamma (fst (fst b)) (snd (fst b)) (snd b) p) bs' prior = total /\
  gamma 0 1 0 prior = prior.
Proof. exact gamma_reorder. Qed.

Example C28_case_gamma :
  fold_left (fun p b => gamma (fst (fst b)) (snd (fst b)) (snd b) p) [(5, 6, 2); (4, 4, 1)] (mkGammaProportional 2 1 1 1) = mkGammaProportional 48 10 4 4.
Proof. unfold gamma; simpl; f_equal; field. Qed.

Print Assumptions C28_gamma_sequential.

(** C28: gamma_known_rate *)
Theorem C28_gamma_known_rate_sequential :
  forall rate (bs bs' : list (R * R)) (prior : GammaKnownRateProportional R),
  Permutation bs bs' ->
  let total := gamma_known_rate (prodR (map fst bs)) (sumR (map snd bs)) rate prior in
  fold_left (fun p b => gamma_known_rate (fst b) (snd b) rate p) bs prior = total /\
  fold_left (fun p b => gamma_known_rate (fst b) (snd b) rate p) bs' prior = total /\
  gamma_known_rate 1 0 rate prior = prior.
Proof. exact gamma_known_rate_reorder. Qed.

Example C28_case_gamma_known_rate :
  fold_left (fun p b => gamma_known_rate (fst b) (snd b) 3 p) [(6, 2); (4, 1)] (mkGammaKnownRateProportional 2 1 1) = mkGammaKnownRateProportional 48 4 4.
Proof. unfold gamma_known_rate; simpl; f_equal; field. Qed.

Print Assumptions C28_gamma_known_rate_sequential.

(** C28: beta *)
Theorem C28_beta_sequential :
  forall (bs bs' : list (R * R * R)) (prior : BetaProportional R),
  Permutation bs bs' ->
  let total := beta (prodR (map (fun b => fst (fst b)) bs)) (prodR (map (fun b => snd (fst b)) bs)) (sumR (map snd bs)) prior in
  fold_left (fun p b => beta (fst (fst b)) (snd (fst b)) (snd b) p) bs prior = total /\
  fold_left (fun p b => beta (fst (fst b)) (snd (fst b)) (snd b) p) bs' prior = total /\
  beta 1 1 0 prior = prior.
Proof. exact beta_reorder. Qed.

Example C28_case_beta :
  fold_left (fun p b => beta (fst (fst b)) (snd (fst b)) (snd b) p) [(/ 6, / 3, 2); (/ 4, 3 / 4, 1)] (mkBetaProportional 2 4 1) = mkBetaProportional (/ 12) 1 4.
Proof. unfold beta; simpl; f_equal; field. Qed.

Print Assumptions C28_beta_sequential.

(** C28: uniform_pareto (the statistic of the maximum is a maximum) *)
Theorem C28_uniform_pareto_sequential :
  forall x n (bs bs' : list (R * R)) (prior : Pareto R),
  Permutation ((x, n) :: bs) bs' ->
  let total := uniform_pareto Rmax (maxR x (map fst bs)) (sumR (n :: map snd bs)) prior in
  fold_left (fun p b => uniform_pareto Rmax (fst b) (snd b) p) ((x, n) :: bs) prior = total /\
  fold_left (fun p b => uniform_pareto Rmax (fst b) (snd b) p) bs' prior = total /\
  (forall y, y <= Pareto_x_m prior -> uniform_pareto Rmax y 0 prior = prior).
Proof. exact uniform_pareto_reorder. Qed.

Example C28_case_pareto :
  uniform_pareto Rmax 2 1 (uniform_pareto Rmax 5 3 (mkPareto 4 1)) = mkPareto 5 5.
Proof. unfold uniform_pareto; simpl. rewrite (Rmax_right 4 5), (Rmax_left 5 2) by lra. f_equal; ring. Qed.

Print Assumptions C28_uniform_pareto_sequential.

(** C28: the hypergeometric model is not sequential. *)
Theorem C28_hypergeometric_sequential_refuted :
  exists (p : BetaBinomial R) (x1 n1 x2 n2 : R),
  hypergeometric_beta_binomial x2 n2 (hypergeometric_beta_binomial x1 n1 p) <> hypergeometric_beta_binomial (x1 + x2) (n1 + n2) p.
Proof. exists (mkBetaBinomial 3 1 1), 1, 1, 1, 1. replace (1 + 1) with 2 by ring. exact hypergeometric_not_sequential. Qed.

Print Assumptions C28_hypergeometric_sequential_refuted.

(** C29: any list of non-empty batches. *)
Theorem C29_normal_sequential :
  forall {M} x y n (bs : list (R * R * R)) (prior : NormalPrior R M),
  0 < n -> Forall (fun b => 0 < snd b) bs -> normal_prior_ok prior ->
  fold_normal ((x, y, n) :: bs) prior =
  normal (sumR (x :: map (fun b => fst (fst b)) bs)) (sumR (y :: map (fun b => snd (fst b)) bs)) (sumR (n :: map snd bs)) prior.
Proof. exact @normal_batch. Qed.

Example C29_case :
  normal_prior_ok (M := unit) (PNG (mkNormalGamma 0 1 1 1)) /\ 0 < 2 /\ Forall (fun b => 0 < snd b) [(3, 5, 2); (4, 16, 1)].
Proof. split. simpl; lra. split. lra. side. Qed.

Print Assumptions C29_normal_sequential.

(** C29: order independence. *)
Theorem C29_normal_order_independent :
  forall {M} (bs bs' : list (R * R * R)) (prior : NormalPrior R M),
  Forall (fun b => 0 < snd b) bs -> normal_prior_ok prior -> Permutation bs bs' ->
  fold_normal bs prior = fold_normal bs' prior.
Proof. exact @normal_reorder. Qed.

Print Assumptions C29_normal_order_independent.

(** C29: concatenated data. *)
Theorem C29_normal_data :
  forall {M} (d1 d2 : list R) (prior : NormalPrior R M),
  d1 <> [] -> d2 <> [] -> normal_prior_ok prior ->
  bind (normal (sumR d1) (sumR (map (fun x => x ^ 2) d1)) (INR (length d1)) prior)
       (normal (sumR d2) (sumR (map (fun x => x ^ 2) d2)) (INR (length d2))) =
  normal (sumR (d1 ++ d2)) (sumR (map (fun x => x ^ 2) (d1 ++ d2))) (INR (length (d1 ++ d2))) prior.
Proof. exact @normal_app. Qed.

Example C29_case_data :
  [1; 2] <> [] /\ normal_prior_ok (M := unit) (PNIG (mkNormalInverseGamma 0 1 1 None (Some 2))).
Proof. split. discriminate. split; [reflexivity|]. split; [exists 2; split; [reflexivity|lra]|simpl; lra]. Qed.

Print Assumptions C29_normal_data.

(** C30: any sequence of calls on genuine data keeps the parameters in the domain. *)
Theorem C30_history_proper :
  forall {M} (d d' : anyprior M),
  history d d' -> proper d -> proper d'.
Proof. exact @history_proper. Qed.

Example C30_case :
  history (M := unit) (ABeta (mkBeta 1 1)) (ABeta (mkBeta 5 4)) /\ proper (M := unit) (ABeta (mkBeta 5 4)).
Proof. assert (H : history (M := unit) (ABeta (mkBeta 1 1)) (ABeta (mkBeta 5 4))).
  { eapply history_cons. apply (call_binomial_beta _ [(3, 2); (2, 1)]%nat). side.
    eapply history_cons. apply (call_geometric_beta _ true [2]%nat). side.
    match goal with |- history (ABeta ?d) _ => replace d with (mkBeta 5 4) end. apply history_nil.
    unfold geometric_beta, binomial_beta; simpl; f_equal; ring. }
  split. exact H. apply (C30_history_proper _ _ H). simpl; lra. Qed.

Print Assumptions C30_history_proper.

(** C30 does not extend to von_mises_known_concentration: concentration -1 from a proper prior and one observation. *)
Theorem C30_von_mises_concentration_refuted :
  exists (prior : VonMisesKnownConcentration R) (x : R), 0 < VonMisesKnownConcentration_a prior /\ forall arctan2 : R -> R -> R,
  VonMisesKnownConcentration_a (von_mises_known_concentration sin cos arctan2 (cos x) (sin x) 1 1 prior) < 0.
Proof. exists (mkVonMisesKnownConcentration 1 0), (- (PI / 2)). split; [simpl; lra|]. intros arctan2. rewrite von_mises_known_concentration_negative. lra. Qed.

Print Assumptions C30_von_mises_concentration_refuted.

(** C31: the posterior mean lies between the prior mean and the sample mean. *)
Theorem C31_binomial_beta_compromise :
  forall (prior : Beta R) n x m0 m1,
  0 < Beta_alpha prior -> 0 < Beta_beta prior -> 0 < n -> 0 <= x <= n ->
  is_mean Fpos0 Fone (pdf (Beta_dist prior)) m0 ->
  is_mean Fpos0 Fone (pdf (Beta_dist (binomial_beta n x prior))) m1 ->
  between m0 (x / n) m1.
Proof. exact binomial_beta_compromise. Qed.

Example C31_case_binomial_beta :
  between (1 / 2) (3 / 3) (4 / 5).
Proof. unfold between. lra. Qed.

Print Assumptions C31_binomial_beta_compromise.

(** C31: consistency. *)
Theorem C31_binomial_beta_consistent :
  forall (prior : Beta R) (X : nat -> R) (M : nat -> R) (l : R),
  0 < Beta_alpha prior -> 0 < Beta_beta prior -> (forall N, 0 <= X N <= INR N) ->
  (forall N, is_mean Fpos0 Fone (pdf (Beta_dist (binomial_beta (INR N) (X N) prior))) (M N)) ->
  is_lim_seq (fun N => X N / INR N) l -> is_lim_seq M l.
Proof. exact binomial_beta_consistent. Qed.

Example C31_case_binomial_beta_limit :
  is_lim_seq (fun N => (INR N / 2) / INR N) (/ 2).
Proof. apply is_lim_seq_ext_loc with (fun _ => / 2). exists 1%nat. intros n Hn. field. apply not_0_INR. lia. apply is_lim_seq_const. Qed.

Print Assumptions C31_binomial_beta_consistent.

(** C31: the posterior mean lies between the prior mean and the sample mean. *)
Theorem C31_poisson_gamma_compromise :
  forall (prior : Gamma R) x n m0 m1,
  0 < Gamma_alpha prior -> 0 < Gamma_beta prior -> 0 < n -> 0 <= x ->
  is_mean Fpos0 Finf (pdf (Gamma_dist prior)) m0 ->
  is_mean Fpos0 Finf (pdf (Gamma_dist (poisson_gamma x n prior))) m1 ->
  between m0 (x / n) m1.
Proof. exact poisson_gamma_compromise. Qed.

Example C31_case_poisson_gamma :
  between (1 / 2) (9 / 3) (10 / 5).
Proof. unfold between. lra. Qed.

Print Assumptions C31_poisson_gamma_compromise.

(** C31: consistency. *)
Theorem C31_poisson_gamma_consistent :
  forall (prior : Gamma R) (X : nat -> R) (M : nat -> R) (l : R),
  0 < Gamma_alpha prior -> 0 < Gamma_beta prior -> (forall N, 0 <= X N) ->
  (forall N, is_mean Fpos0 Finf (pdf (Gamma_dist (poisson_gamma (X N) (INR N) prior))) (M N)) ->
  is_lim_seq (fun N => X N / INR N) l -> is_lim_seq M l.
Proof. exact poisson_gamma_consistent. Qed.

Example C31_case_poisson_gamma_limit :
  is_lim_seq (fun N => (INR N / 2) / INR N) (/ 2).
Proof. apply is_lim_seq_ext_loc with (fun _ => / 2). exists 1%nat. intros n Hn. field. apply not_0_INR. lia. apply is_lim_seq_const. Qed.

Print Assumptions C31_poisson_gamma_consistent.

(** C31: compromise and shrinkage, in terms of the densities' means and variances. *)
Theorem C31_normal_known_variance_compromise :
  forall (prior : Normal R) x n var m0 m1 v0 v1,
  0 < Normal_sigma prior -> 0 < var -> 0 < n ->
  is_mean Fminf Finf (pdf (Normal_dist prior)) m0 ->
  is_mean Fminf Finf (pdf (Normal_dist (normal_known_variance x n var prior))) m1 ->
  is_variance Fminf Finf (pdf (Normal_dist prior)) v0 ->
  is_variance Fminf Finf (pdf (Normal_dist (normal_known_variance x n var prior))) v1 ->
  between m0 (x / n) m1 /\ v1 < v0 /\ v1 < var / n.
Proof. exact normal_known_variance_compromise. Qed.

Example C31_case_normal :
  is_mean Fminf Finf (pdf (Normal_dist (mkNormal 1 2))) 1 /\ is_variance Fminf Finf (pdf (Normal_dist (mkNormal 1 2))) (2 ^ 2).
Proof. split; [apply (norm_mean 1 2)|apply (norm_variance 1 2)]; lra. Qed.

Print Assumptions C31_normal_known_variance_compromise.

(** C31: consistency. *)
Theorem C31_normal_known_variance_consistent :
  forall (prior : Normal R) var (X : nat -> R) (M V : nat -> R) (l : R),
  0 < Normal_sigma prior -> 0 < var ->
  (forall N, is_mean Fminf Finf (pdf (Normal_dist (normal_known_variance (X N) (INR N) var prior))) (M N)) ->
  (forall N, is_variance Fminf Finf (pdf (Normal_dist (normal_known_variance (X N) (INR N) var prior))) (V N)) ->
  is_lim_seq (fun N => X N / INR N) l -> is_lim_seq M l /\ is_lim_seq V 0.
Proof. exact normal_known_variance_consistent. Qed.

Print Assumptions C31_normal_known_variance_consistent.

(** C31: sigma strictly decreases. *)
Theorem C31_normal_known_variance_shrinks :
  forall (prior : Normal R) x n var,
  0 < Normal_sigma prior -> 0 < var -> 0 < n ->
  0 < Normal_sigma (normal_known_variance x n var prior) < Normal_sigma prior.
Proof. exact normal_known_variance_shrinks. Qed.

Example C31_case_shrinks :
  0 < 3 /\ Normal_sigma (normal_known_variance 6 3 1 (mkNormal 0 1)) = sqrt (1 / 4).
Proof. split. lra. simpl. f_equal. field. Qed.

Print Assumptions C31_normal_known_variance_shrinks.

