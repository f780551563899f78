(** Sequential updating equals batch updating: C28, C29. *)

From Coq Require Import Reals Lra Psatz ZArith Lia Permutation.
From Coquelicot Require Import Coquelicot.
From Verif Require Import Model.Num Model.Py Model.Dists Model.ScipyDist Model.Models Spec.Special Spec.Densities Spec.Bayes Spec.Joint.
From Verif Require Import Analysis.RealAux Proofs.Joint.
From Coq Require Import List.
Import ListNotations.
Open Scope R_scope.

(** A model updates a prior of type [P] from statistics of type [S]. *)
Section Fold.
Context {S P : Type} (f : S -> P -> P) (zero : S) (plus : S -> S -> S) (inv : P -> Prop) (good : S -> Prop).
Hypothesis good0 : good zero.
Hypothesis goodp : forall a b, good a -> good b -> good (plus a b).
Hypothesis f0 : forall p, inv p -> f zero p = p.
Hypothesis fplus : forall a b p, good a -> good b -> inv p -> f b (f a p) = f (plus a b) p.
Hypothesis finv : forall a p, good a -> inv p -> inv (f a p).

Lemma fold_batch bs p : Forall good bs -> inv p ->
  fold_left (fun p b => f b p) bs p = f (fold_right plus zero bs) p.
Proof.
  intros Hb. revert p. induction Hb; intros p Hp; simpl. symmetry; auto.
  rewrite IHHb by auto. rewrite fplus; auto. clear - Hb good0 goodp. induction Hb; simpl; auto.
Qed.
End Fold.

Lemma sumR_perm l l' : Permutation l l' -> sumR l = sumR l'.
Proof. induction 1; simpl; try lra. Qed.

Lemma sumR_fst_fold (bs : list (R * R)) :
  fold_right (fun a b => (fst a + fst b, snd a + snd b)) (0, 0) bs = (sumR (map fst bs), sumR (map snd bs)).
Proof. induction bs; simpl; auto. now rewrite IHbs. Qed.

Definition add2 (a b : R * R) : R * R := (fst a + fst b, snd a + snd b).

(** Two additive statistics, no side conditions. *)
Lemma seq2 {P} (f : R -> R -> P -> P) :
  (forall p, f 0 0 p = p) ->
  (forall a b c d p, f c d (f a b p) = f (a + c) (b + d) p) ->
  forall (bs : list (R * R)) p,
  fold_left (fun p b => f (fst b) (snd b) p) bs p = f (sumR (map fst bs)) (sumR (map snd bs)) p.
Proof.
  intros H0 H bs p.
  transitivity (f (fst (fold_right add2 (0, 0) bs)) (snd (fold_right add2 (0, 0) bs)) p).
  - apply (fold_batch (fun s => f (fst s) (snd s)) (0, 0) add2 (fun _ => True) (fun _ => True)); auto.
    + intros a b q _ _ _. apply H.
    + rewrite Forall_forall; auto.
  - unfold add2. rewrite sumR_fst_fold. reflexivity.
Qed.

Lemma Beta_eq (x x' y y' : R) : x = x' -> y = y' -> mkBeta x y = mkBeta x' y'.
Proof. congruence. Qed.
Lemma Gamma_eq (x x' y y' : R) : x = x' -> y = y' -> mkGamma x y = mkGamma x' y'.
Proof. congruence. Qed.
Lemma IG_eq (x x' y y' : R) : x = x' -> y = y' -> mkInverseGamma x y = mkInverseGamma x' y'.
Proof. congruence. Qed.

Ltac seqsolve := intros; repeat match goal with p : Beta R |- _ => destruct p | p : Gamma R |- _ => destruct p
  | p : InverseGamma R |- _ => destruct p | p : VonMisesKnownDirectionProportional R |- _ => destruct p end;
  cbv [binomial_beta get_binomial_beta_posterior_params negative_binomial_beta geometric_beta poisson_gamma get_poisson_gamma_posterior_params
       get_exponential_gamma_posterior_params exponential_gamma
       gamma_known_shape inverse_gamma_known_rate weibull_inverse_gamma_known_shape pareto_gamma von_mises_known_direction
       normal_known_mean_inverse_gamma_prior
       Beta_alpha Beta_beta Gamma_alpha Gamma_beta InverseGamma_alpha InverseGamma_beta
       VonMisesKnownDirectionProportional_c VonMisesKnownDirectionProportional_r
       nadd nsub nmul ndiv nlit nhalf nsq NumR];
  f_equal; try lra; try field.

Lemma binomial_beta_seq bs prior :
  fold_left (fun p b => binomial_beta (fst b) (snd b) p) bs prior =
  binomial_beta (sumR (map fst bs)) (sumR (map snd bs)) prior.
Proof. apply seq2; seqsolve. Qed.

Lemma bernoulli_beta_seq xs prior :
  fold_left (fun p x => bernoulli_beta x p) xs prior = binomial_beta (INR (length xs)) (sumR xs) prior.
Proof.
  pose proof (binomial_beta_seq (map (fun x => (1, x)) xs) prior) as H.
  rewrite !map_map in H. simpl in H. rewrite map_id in H.
  replace (sumR (map (fun _ => 1) xs)) with (INR (length xs)) in H.
  - rewrite <- H. clear. revert prior. induction xs as [|x xs IH]; intros; simpl; auto.
  - clear. induction xs; simpl sumR; simpl map. reflexivity. simpl length. rewrite S_INR, IHxs. unfold sumR. simpl. ring.
Qed.

Lemma negative_binomial_beta_seq r bs prior :
  fold_left (fun p b => negative_binomial_beta r (fst b) (snd b) p) bs prior =
  negative_binomial_beta r (sumR (map fst bs)) (sumR (map snd bs)) prior.
Proof. apply (seq2 (fun n x => negative_binomial_beta r n x)); seqsolve. Qed.

Lemma geometric_beta_seq one_start bs prior :
  fold_left (fun p b => geometric_beta (fst b) (snd b) p one_start) bs prior =
  geometric_beta (sumR (map fst bs)) (sumR (map snd bs)) prior one_start.
Proof. apply (seq2 (fun n x p => geometric_beta n x p one_start)); destruct one_start; seqsolve. Qed.

Lemma poisson_gamma_seq bs prior :
  fold_left (fun p b => poisson_gamma (fst b) (snd b) p) bs prior =
  poisson_gamma (sumR (map fst bs)) (sumR (map snd bs)) prior.
Proof. apply seq2; seqsolve. Qed.

Lemma exponential_gamma_seq bs prior :
  fold_left (fun p b => exponential_gamma (fst b) (snd b) p) bs prior =
  exponential_gamma (sumR (map fst bs)) (sumR (map snd bs)) prior.
Proof. apply seq2; seqsolve. Qed.

Lemma gamma_known_shape_seq alpha bs prior :
  fold_left (fun p b => gamma_known_shape (fst b) (snd b) alpha p) bs prior =
  gamma_known_shape (sumR (map fst bs)) (sumR (map snd bs)) alpha prior.
Proof. apply (seq2 (fun x n => gamma_known_shape x n alpha)); seqsolve. Qed.

Lemma inverse_gamma_known_rate_seq alpha bs prior :
  fold_left (fun p b => inverse_gamma_known_rate (fst b) (snd b) alpha p) bs prior =
  inverse_gamma_known_rate (sumR (map fst bs)) (sumR (map snd bs)) alpha prior.
Proof. apply (seq2 (fun x n => inverse_gamma_known_rate x n alpha)); seqsolve. Qed.

Lemma weibull_seq bs prior :
  fold_left (fun p b => weibull_inverse_gamma_known_shape (fst b) (snd b) p) bs prior =
  weibull_inverse_gamma_known_shape (sumR (map fst bs)) (sumR (map snd bs)) prior.
Proof. apply seq2; seqsolve. Qed.

Lemma pareto_gamma_seq ln x_m bs prior :
  fold_left (fun p b => pareto_gamma ln (fst b) (snd b) x_m p) bs prior =
  pareto_gamma ln (sumR (map fst bs)) (sumR (map snd bs)) x_m prior.
Proof. apply (seq2 (fun n s => pareto_gamma ln n s x_m)); seqsolve. Qed.

Lemma von_mises_known_direction_seq bs prior :
  fold_left (fun p b => von_mises_known_direction (fst b) (snd b) p) bs prior =
  von_mises_known_direction (sumR (map fst bs)) (sumR (map snd bs)) prior.
Proof. apply seq2; seqsolve. Qed.

(** Products: gamma, gamma_known_rate, beta.  A batch is (x_total, x_prod, n). *)
Lemma gamma_seq (bs : list (R * R * R)) (prior : GammaProportional R) :
  fold_left (fun p b => gamma (fst (fst b)) (snd (fst b)) (snd b) p) bs prior =
  gamma (sumR (map (fun b => fst (fst b)) bs)) (prodR (map (fun b => snd (fst b)) bs)) (sumR (map snd bs)) prior.
Proof.
  revert prior. induction bs as [|[[x y] n] bs IH]; intros [p q r s].
  - unfold gamma. simpl. f_equal; lra.
  - simpl fold_left. rewrite IH. unfold gamma. simpl. f_equal; ring.
Qed.

Lemma gamma_known_rate_seq b0 (bs : list (R * R)) (prior : GammaKnownRateProportional R) :
  fold_left (fun p b => gamma_known_rate (fst b) (snd b) b0 p) bs prior =
  gamma_known_rate (prodR (map fst bs)) (sumR (map snd bs)) b0 prior.
Proof.
  revert prior. induction bs as [|[x n] bs IH]; intros [p q r].
  - unfold gamma_known_rate. simpl. f_equal; lra.
  - simpl fold_left. rewrite IH. unfold gamma_known_rate. simpl. f_equal; ring.
Qed.

Lemma beta_seq (bs : list (R * R * R)) (prior : BetaProportional R) :
  fold_left (fun p b => beta (fst (fst b)) (snd (fst b)) (snd b) p) bs prior =
  beta (prodR (map (fun b => fst (fst b)) bs)) (prodR (map (fun b => snd (fst b)) bs)) (sumR (map snd bs)) prior.
Proof.
  revert prior. induction bs as [|[[x y] n] bs IH]; intros [p q r].
  - unfold beta. simpl. f_equal; lra.
  - simpl fold_left. rewrite IH. unfold beta. simpl. f_equal; ring.
Qed.

(** uniform_pareto: the statistics are (max, n). *)
Lemma uniform_pareto_seq (bs : list (R * R)) (prior : Pareto R) :
  fold_left (fun p b => uniform_pareto Rmax (fst b) (snd b) p) bs prior =
  mkPareto (maxR (Pareto_x_m prior) (map fst bs)) (Pareto_alpha prior + sumR (map snd bs)).
Proof.
  revert prior. induction bs as [|[x n] bs IH]; intros [m a].
  - simpl. f_equal; lra.
  - simpl fold_left. rewrite IH. unfold uniform_pareto. simpl. f_equal; try lra.
    clear. induction bs as [|[y k] bs IH]; simpl. apply Rmax_comm. rewrite IH.
    rewrite !Rmax_assoc. f_equal. apply Rmax_comm.
Qed.

Lemma maxR_Rmax a b l : maxR (Rmax a b) l = Rmax a (maxR b l).
Proof. induction l; simpl; auto. rewrite IHl, !Rmax_assoc. f_equal. apply Rmax_comm. Qed.

Lemma uniform_pareto_batch (bs : list (R * R)) x n (prior : Pareto R) :
  fold_left (fun p b => uniform_pareto Rmax (fst b) (snd b) p) ((x, n) :: bs) prior =
  uniform_pareto Rmax (maxR x (map fst bs)) (sumR (n :: map snd bs)) prior.
Proof.
  rewrite uniform_pareto_seq. destruct prior as [m a]. unfold uniform_pareto. simpl. f_equal.
  rewrite <- maxR_Rmax. rewrite Rmax_comm. now rewrite maxR_Rmax.
Qed.

(** normal_known_variance: needs a proper prior because sigma is stored, not its square. *)
Lemma Normal_eq (x x' y y' : R) : x = x' -> y = y' -> mkNormal x y = mkNormal x' y'.
Proof. congruence. Qed.

Lemma nkv_sigma x n var (p : Normal R) : 0 < Normal_sigma p -> 0 < var -> 0 <= n ->
  0 < Normal_sigma (normal_known_variance x n var p) /\
  / (Normal_sigma (normal_known_variance x n var p)) ^ 2 = / (Normal_sigma p) ^ 2 + n / var.
Proof.
  destruct p as [m s]. cbv [normal_known_variance Normal_sigma Normal_mu ndiv nadd nsq nsqrt nlit NumR]. intros Hs Hv Hn.
  assert (H1 : 0 < / s ^ 2) by (apply Rinv_0_lt_compat; nra).
  assert (H2 : 0 <= n / var) by (apply Rmult_le_pos; auto; left; now apply Rinv_0_lt_compat).
  assert (H3 : 0 < 1 / (1 / s ^ 2 + n / var)) by (apply Rdiv_lt_0_compat; unfold Rdiv in *; lra).
  split. now apply sqrt_lt_R0. rewrite pow2_sqrt by lra. assert (0 < s ^ 2) by nra. assert (0 < var + n * s ^ 2) by nra.
  field. repeat split; nra.
Qed.

Lemma normal_eq_from (p q : Normal R) : 0 < Normal_sigma p -> 0 < Normal_sigma q -> Normal_mu p = Normal_mu q ->
  / (Normal_sigma p) ^ 2 = / (Normal_sigma q) ^ 2 -> p = q.
Proof.
  destruct p as [m s], q as [m' s']; simpl. intros Hs Hs' -> H. f_equal.
  assert (E : s * (s * 1) = s' * (s' * 1)). { rewrite <- (Rinv_inv (s * _)), <- (Rinv_inv (s' * _)). now rewrite H. }
  nra.
Qed.

Lemma nkv_mu x n var (p : Normal R) : 0 < Normal_sigma p -> 0 < var -> 0 <= n ->
  Normal_mu (normal_known_variance x n var p) * (/ (Normal_sigma p) ^ 2 + n / var) = Normal_mu p / (Normal_sigma p) ^ 2 + x / var.
Proof.
  destruct p as [m s]. cbv [normal_known_variance Normal_sigma Normal_mu ndiv nadd nsq nsqrt nlit NumR]. intros Hs Hv Hn.
  assert (H1 : 0 < / s ^ 2) by (apply Rinv_0_lt_compat; nra).
  assert (H2 : 0 <= n / var) by (apply Rmult_le_pos; auto; left; now apply Rinv_0_lt_compat).
  assert (0 < s ^ 2) by nra. assert (0 < var + n * s ^ 2) by nra.
  field. repeat split; nra.
Qed.

Lemma normal_known_variance_seq var (bs : list (R * R)) (prior : Normal R) :
  0 < var -> 0 < Normal_sigma prior -> Forall (fun b => 0 <= snd b) bs ->
  fold_left (fun p b => normal_known_variance (fst b) (snd b) var p) bs prior =
  normal_known_variance (sumR (map fst bs)) (sumR (map snd bs)) var prior.
Proof.
  intros Hv Hs Hb.
  transitivity (normal_known_variance (fst (fold_right add2 (0, 0) bs)) (snd (fold_right add2 (0, 0) bs)) var prior).
  2: unfold add2; now rewrite sumR_fst_fold.
  apply (fold_batch (fun s => normal_known_variance (fst s) (snd s) var) (0, 0) add2
    (fun p => 0 < Normal_sigma p) (fun s => 0 <= snd s)); auto; simpl.
  - lra.
  - intros; unfold add2; simpl; lra.
  - intros p Hp. destruct (nkv_sigma 0 0 var p Hp Hv (Rle_refl 0)) as [A B].
    pose proof (nkv_mu 0 0 var p Hp Hv (Rle_refl 0)) as M. unfold Rdiv in *. rewrite !Rmult_0_l, !Rplus_0_r in *.
    apply normal_eq_from; auto. assert (0 < / Normal_sigma p ^ 2) by (apply Rinv_0_lt_compat; nra).
    apply Rmult_eq_reg_r with (/ Normal_sigma p ^ 2); lra.
  - intros [x n] [y k] p; simpl; intros Hn Hk Hp.
    destruct (nkv_sigma x n var p Hp Hv Hn) as [A1 B1].
    destruct (nkv_sigma y k var _ A1 Hv Hk) as [A2 B2].
    destruct (nkv_sigma (x + y) (n + k) var p Hp Hv ltac:(lra)) as [A3 B3].
    pose proof (nkv_mu x n var p Hp Hv Hn) as M1. pose proof (nkv_mu y k var _ A1 Hv Hk) as M2.
    pose proof (nkv_mu (x + y) (n + k) var p Hp Hv ltac:(lra)) as M3.
    apply normal_eq_from; auto.
    + unfold Rdiv in *. rewrite B1 in M2. 
      assert (0 < / Normal_sigma p ^ 2) by (apply Rinv_0_lt_compat; nra). assert (0 < / var) by now apply Rinv_0_lt_compat.
      assert (0 < / Normal_sigma p ^ 2 + (n + k) * / var) by nra.
      apply Rmult_eq_reg_r with (/ Normal_sigma p ^ 2 + (n + k) * / var); lra.
    + rewrite B2, B1, B3. unfold Rdiv. ring.
  - intros [x n] p Hn Hp. exact (proj1 (nkv_sigma x n var p Hp Hv Hn)).
Qed.

Lemma normal_known_precision_seq precision (bs : list (R * R)) (prior : Normal R) :
  0 < precision -> 0 < Normal_sigma prior -> Forall (fun b => 0 <= snd b) bs ->
  fold_left (fun p b => normal_known_precision (fst b) (snd b) precision p) bs prior =
  normal_known_precision (sumR (map fst bs)) (sumR (map snd bs)) precision prior.
Proof.
  intros Hp. apply normal_known_variance_seq. simpl. apply Rdiv_lt_0_compat; lra.
Qed.

(** normal_known_mean, both families. A batch is (x_total, x2_total, n). *)
Lemma nkm_ig_seq mu (bs : list (R * R * R)) (prior : InverseGamma R) :
  fold_left (fun p b => normal_known_mean_inverse_gamma_prior (fst (fst b)) (snd (fst b)) (snd b) mu p) bs prior =
  normal_known_mean_inverse_gamma_prior (sumR (map (fun b => fst (fst b)) bs)) (sumR (map (fun b => snd (fst b)) bs)) (sumR (map snd bs)) mu prior.
Proof.
  revert prior. induction bs as [|[[x y] n] bs IH]; intros [a b].
  - unfold normal_known_mean_inverse_gamma_prior. simpl. f_equal; field.
  - simpl fold_left. rewrite IH. unfold normal_known_mean_inverse_gamma_prior. simpl. f_equal; field.
Qed.

Lemma sics_roundtrip1 (d : InverseGamma R) : InverseGamma_alpha d <> 0 ->
  ScaledInverseChiSquared_to_inverse_gamma (ScaledInverseChiSquared_from_inverse_gamma d) = d.
Proof.
  destruct d as [a b]. simpl. intros H.
  cbv [ScaledInverseChiSquared_to_inverse_gamma ScaledInverseChiSquared_from_inverse_gamma InverseGamma_alpha InverseGamma_beta
    ScaledInverseChiSquared_nu ScaledInverseChiSquared_sigma2 nmul ndiv nlit NumR]. f_equal; field; auto.
Qed.

Lemma sics_roundtrip2 (d : ScaledInverseChiSquared R) : ScaledInverseChiSquared_nu d <> 0 ->
  ScaledInverseChiSquared_from_inverse_gamma (ScaledInverseChiSquared_to_inverse_gamma d) = d.
Proof.
  destruct d as [a b]. simpl. intros H.
  cbv [ScaledInverseChiSquared_to_inverse_gamma ScaledInverseChiSquared_from_inverse_gamma InverseGamma_alpha InverseGamma_beta
    ScaledInverseChiSquared_nu ScaledInverseChiSquared_sigma2 nmul ndiv nlit NumR]. f_equal; field; auto.
Qed.

Lemma normal_known_mean_seq mu (bs : list (R * R * R)) (prior : VariancePrior R) :
  variance_ok prior -> Forall (fun b => 0 <= snd b) bs ->
  fold_left (fun p b => normal_known_mean (fst (fst b)) (snd (fst b)) (snd b) mu p) bs prior =
  normal_known_mean (sumR (map (fun b => fst (fst b)) bs)) (sumR (map (fun b => snd (fst b)) bs)) (sumR (map snd bs)) mu prior.
Proof.
  destruct prior as [d|d]; intros Hok Hb.
  - unfold normal_known_mean at 2. rewrite <- nkm_ig_seq. clear Hok Hb.
    revert d. induction bs; intros; simpl; auto. apply IHbs.
  - simpl in Hok. destruct Hok as [H1 H2].
    unfold normal_known_mean at 2. rewrite <- nkm_ig_seq.
    rewrite <- (sics_roundtrip2 d) at 1 by lra.
    assert (Ha : 0 < InverseGamma_alpha (ScaledInverseChiSquared_to_inverse_gamma d)) by (simpl; lra).
    generalize dependent (ScaledInverseChiSquared_to_inverse_gamma d). clear H1 H2 d.
    induction Hb as [|[[x y] n] bs Hn Hb IH]; intros d Ha; simpl; auto.
    unfold normal_known_mean at 2. rewrite sics_roundtrip1 by lra. apply IH. simpl in *. lra.
Qed.

(** C29: normal. *)
Definition fold_normal {M} (bs : list (R * R * R)) (prior : NormalPrior R M) : res (NormalPrior R M) :=
  fold_left (fun r b => bind r (normal (fst (fst b)) (snd (fst b)) (snd b))) bs (Ok prior).

Lemma normal_update_seq x1 y1 n1 x2 y2 n2 mu nu a b : 0 < n1 -> 0 < n2 -> 0 < nu ->
  (let '(mu', nu', a', b') := normal_update x1 y1 n1 mu nu a b in normal_update x2 y2 n2 mu' nu' a' b') =
  normal_update (x1 + x2) (y1 + y2) (n1 + n2) mu nu a b.
Proof.
  intros H1 H2 H3. cbv [normal_update nadd nsub nmul ndiv nlit nhalf nsq NumR].
  f_equal; [f_equal; [f_equal|]|]; field; lra.
Qed.

Lemma normal_step {M} x1 y1 n1 x2 y2 n2 (prior : NormalPrior R M) : 0 < n1 -> 0 < n2 -> normal_prior_ok prior ->
  bind (normal x1 y1 n1 prior) (normal x2 y2 n2) = normal (x1 + x2) (y1 + y2) (n1 + n2) prior.
Proof.
  intros H1 H2. destruct prior as [d|d]; intros Hok; simpl in Hok.
  - destruct Hok as (_ & (nu & E & Hnu) & _ & _). cbv [normal]. rewrite E.
    rewrite <- (normal_update_seq x1 y1 n1 x2 y2 n2) by auto.
    destruct (normal_update x1 y1 n1 _ nu _ _) as [[[mu' nu'] a'] b']. reflexivity.
  - destruct Hok as (Hnu & _ & _). cbv [normal].
    rewrite <- (normal_update_seq x1 y1 n1 x2 y2 n2) by auto.
    destruct (normal_update x1 y1 n1 _ _ _ _) as [[[mu' nu'] a'] b']. reflexivity.
Qed.

Lemma normal_batch {M} x y n (bs : list (R * R * R)) (prior : NormalPrior R M) :
  0 < n -> Forall (fun b => 0 < snd b) bs -> normal_prior_ok prior ->
  fold_normal ((x, y, n) :: bs) prior =
  normal (sumR (x :: map (fun b => fst (fst b)) bs)) (sumR (y :: map (fun b => snd (fst b)) bs)) (sumR (n :: map snd bs)) prior.
Proof.
  intros Hn Hb Hok. unfold fold_normal. simpl fold_left.
  revert x y n Hn. induction Hb as [|[[x2 y2] n2] bs Hn2 Hb IH]; intros x y n Hn.
  - simpl. now rewrite !Rplus_0_r.
  - simpl fold_left. rewrite normal_step by auto. rewrite IH by (simpl in Hn2; lra).
    simpl. f_equal; ring.
Qed.

Lemma normal_reorder {M} (bs bs' : list (R * R * R)) (prior : NormalPrior R M) :
  Forall (fun b => 0 < snd b) bs -> normal_prior_ok prior -> Permutation bs bs' ->
  fold_normal bs prior = fold_normal bs' prior.
Proof.
  intros Hb Hok HP. destruct bs as [|[[x y] n] bs].
  - apply Permutation_nil in HP. now subst.
  - destruct bs' as [|[[x' y'] n'] bs']. apply Permutation_sym, Permutation_nil in HP. discriminate.
    pose proof (Permutation_Forall HP Hb) as Hb'. inversion Hb; inversion Hb'; subst. simpl in *.
    rewrite !normal_batch by auto.
    change (x :: map (fun b => fst (fst b)) bs) with (map (fun b : R * R * R => fst (fst b)) ((x, y, n) :: bs)).
    change (x' :: map (fun b => fst (fst b)) bs') with (map (fun b : R * R * R => fst (fst b)) ((x', y', n') :: bs')).
    change (y :: map (fun b => snd (fst b)) bs) with (map (fun b : R * R * R => snd (fst b)) ((x, y, n) :: bs)).
    change (y' :: map (fun b => snd (fst b)) bs') with (map (fun b : R * R * R => snd (fst b)) ((x', y', n') :: bs')).
    change (n :: map snd bs) with (map (@snd (R * R) R) ((x, y, n) :: bs)).
    change (n' :: map snd bs') with (map (@snd (R * R) R) ((x', y', n') :: bs')).
    f_equal; apply sumR_perm, Permutation_map; auto.
Qed.

(** Two consecutive data sets in one call. *)
Lemma normal_app {M} (d1 d2 : list R) (prior : NormalPrior R M) : d1 <> [] -> d2 <> [] -> normal_prior_ok prior ->
  bind (normal (sumR d1) (sumR (map (fun x => x ^ 2) d1)) (INR (length d1)) prior)
       (normal (sumR d2) (sumR (map (fun x => x ^ 2) d2)) (INR (length d2))) =
  normal (sumR (d1 ++ d2)) (sumR (map (fun x => x ^ 2) (d1 ++ d2))) (INR (length (d1 ++ d2))) prior.
Proof.
  intros H1 H2 Hok. rewrite normal_step; auto.
  - rewrite map_app, app_length, plus_INR.
    assert (S : forall a b, sumR (a ++ b) = sumR a + sumR b) by (induction a; intros; simpl; try rewrite IHa; lra).
    now rewrite !S.
  - apply lt_0_INR. destruct d1; simpl; [congruence|lia].
  - apply lt_0_INR. destruct d2; simpl; [congruence|lia].
Qed.

(** Reordering batches for a model with additive statistics. *)
Lemma seq2_reorder {P} (f : R -> R -> P -> P) :
  (forall bs p, fold_left (fun p b => f (fst b) (snd b) p) bs p = f (sumR (map fst bs)) (sumR (map snd bs)) p) ->
  forall bs bs' p, Permutation bs bs' ->
  fold_left (fun p b => f (fst b) (snd b) p) bs p = fold_left (fun p b => f (fst b) (snd b) p) bs' p.
Proof. intros H bs bs' p HP. rewrite !H. f_equal; apply sumR_perm, Permutation_map; auto. Qed.

(** hypergeometric_beta_binomial is not sequential. *)
Lemma hypergeometric_not_sequential :
  let f (b : R * R) p := hypergeometric_beta_binomial (fst b) (snd b) p in
  f (1, 1) (f (1, 1) (mkBetaBinomial 3 1 1)) <> f (2, 2) (mkBetaBinomial 3 1 1).
Proof. simpl. unfold hypergeometric_beta_binomial. simpl. intros H. injection H. intros. lra. Qed.

(** Batch = sequential, in any order; an empty batch changes nothing. *)
Lemma seq_full {P} (f : R -> R -> P -> P) :
  (forall bs p, fold_left (fun p b => f (fst b) (snd b) p) bs p = f (sumR (map fst bs)) (sumR (map snd bs)) p) ->
  forall (bs bs' : list (R * R)) p, Permutation bs bs' ->
  fold_left (fun p b => f (fst b) (snd b) p) bs p = f (sumR (map fst bs)) (sumR (map snd bs)) p /\
  fold_left (fun p b => f (fst b) (snd b) p) bs' p = f (sumR (map fst bs)) (sumR (map snd bs)) p /\
  f 0 0 p = p.
Proof.
  intros H bs bs' p Hp. split; [apply H|]. split; [|symmetry; exact (H [] p)].
  rewrite H. f_equal; apply sumR_perm; apply Permutation_map; now apply Permutation_sym.
Qed.

Lemma prodR_perm l l' : Permutation l l' -> prodR l = prodR l'.
Proof. induction 1; simpl; try lra. rewrite IHPermutation; auto. Qed.

Lemma maxR_perm x l l' : Permutation l l' -> maxR x l = maxR x l'.
Proof.
  induction 1; simpl; auto. now rewrite IHPermutation. 2: congruence.
  rewrite !Rmax_assoc. f_equal. apply Rmax_comm.
Qed.

Lemma normal_known_variance_reorder var (bs bs' : list (R * R)) (prior : Normal R) :
  0 < var -> 0 < Normal_sigma prior -> Forall (fun b => 0 <= snd b) bs -> Permutation bs bs' ->
  fold_left (fun p b => normal_known_variance (fst b) (snd b) var p) bs prior =
  normal_known_variance (sumR (map fst bs)) (sumR (map snd bs)) var prior /\
  fold_left (fun p b => normal_known_variance (fst b) (snd b) var p) bs' prior =
  normal_known_variance (sumR (map fst bs)) (sumR (map snd bs)) var prior /\
  normal_known_variance 0 0 var prior = prior.
Proof.
  intros Hv Hs Hb Hp. split; [now apply normal_known_variance_seq|]. split.
  - rewrite normal_known_variance_seq; auto. f_equal; apply sumR_perm; apply Permutation_map; now apply Permutation_sym.
    apply (Permutation_Forall Hp Hb).
  - symmetry; exact (normal_known_variance_seq var [] prior Hv Hs (Forall_nil _)).
Qed.

Lemma normal_known_precision_reorder precision (bs bs' : list (R * R)) (prior : Normal R) :
  0 < precision -> 0 < Normal_sigma prior -> Forall (fun b => 0 <= snd b) bs -> Permutation bs bs' ->
  fold_left (fun p b => normal_known_precision (fst b) (snd b) precision p) bs prior =
  normal_known_precision (sumR (map fst bs)) (sumR (map snd bs)) precision prior /\
  fold_left (fun p b => normal_known_precision (fst b) (snd b) precision p) bs' prior =
  normal_known_precision (sumR (map fst bs)) (sumR (map snd bs)) precision prior /\
  normal_known_precision 0 0 precision prior = prior.
Proof.
  intros Hv Hs Hb Hp. split; [now apply normal_known_precision_seq|]. split.
  - rewrite normal_known_precision_seq; auto. f_equal; apply sumR_perm; apply Permutation_map; now apply Permutation_sym.
    apply (Permutation_Forall Hp Hb).
  - symmetry; exact (normal_known_precision_seq precision [] prior Hv Hs (Forall_nil _)).
Qed.

Lemma normal_known_mean_reorder mu (bs bs' : list (R * R * R)) (prior : VariancePrior R) :
  variance_ok prior -> Forall (fun b => 0 <= snd b) bs -> Permutation bs bs' ->
  let total := normal_known_mean (sumR (map (fun b => fst (fst b)) bs)) (sumR (map (fun b => snd (fst b)) bs)) (sumR (map snd bs)) mu prior in
  fold_left (fun p b => normal_known_mean (fst (fst b)) (snd (fst b)) (snd b) mu p) bs prior = total /\
  fold_left (fun p b => normal_known_mean (fst (fst b)) (snd (fst b)) (snd b) mu p) bs' prior = total /\
  normal_known_mean 0 0 0 mu prior = prior.
Proof.
  intros Hv Hb Hp total. split; [now apply normal_known_mean_seq|]. split.
  - rewrite normal_known_mean_seq; auto. unfold total. f_equal; apply sumR_perm; apply Permutation_map; now apply Permutation_sym.
    apply (Permutation_Forall Hp Hb).
  - symmetry; exact (normal_known_mean_seq mu [] prior Hv (Forall_nil _)).
Qed.

Lemma gamma_reorder (bs bs' : list (R * R * R)) (prior : GammaProportional R) : Permutation bs bs' ->
  let total := gamma (sumR (map (fun b => fst (fst b)) bs)) (prodR (map (fun b => snd (fst b)) bs)) (sumR (map snd bs)) prior in
  fold_left (fun p b => gamma (fst (fst b)) (snd (fst b)) (snd b) p) bs prior = total /\
  fold_left (fun p b => gamma (fst (fst b)) (snd (fst b)) (snd b) p) bs' prior = total /\
  gamma 0 1 0 prior = prior.
Proof.
  intros Hp total. split; [now apply gamma_seq|]. split; [|symmetry; exact (gamma_seq [] prior)].
  rewrite gamma_seq. unfold total. f_equal; (apply sumR_perm || apply prodR_perm); apply Permutation_map; now apply Permutation_sym.
Qed.

Lemma beta_reorder (bs bs' : list (R * R * R)) (prior : BetaProportional R) : Permutation bs bs' ->
  let total := beta (prodR (map (fun b => fst (fst b)) bs)) (prodR (map (fun b => snd (fst b)) bs)) (sumR (map snd bs)) prior in
  fold_left (fun p b => beta (fst (fst b)) (snd (fst b)) (snd b) p) bs prior = total /\
  fold_left (fun p b => beta (fst (fst b)) (snd (fst b)) (snd b) p) bs' prior = total /\
  beta 1 1 0 prior = prior.
Proof.
  intros Hp total. split; [now apply beta_seq|]. split; [|symmetry; exact (beta_seq [] prior)].
  rewrite beta_seq. unfold total. f_equal; (apply sumR_perm || apply prodR_perm); apply Permutation_map; now apply Permutation_sym.
Qed.

Lemma gamma_known_rate_reorder rate (bs bs' : list (R * R)) (prior : GammaKnownRateProportional R) : Permutation bs bs' ->
  let total := gamma_known_rate (prodR (map fst bs)) (sumR (map snd bs)) rate prior in
  fold_left (fun p b => gamma_known_rate (fst b) (snd b) rate p) bs prior = total /\
  fold_left (fun p b => gamma_known_rate (fst b) (snd b) rate p) bs' prior = total /\
  gamma_known_rate 1 0 rate prior = prior.
Proof.
  intros Hp total. split; [now apply gamma_known_rate_seq|]. split; [|symmetry; exact (gamma_known_rate_seq rate [] prior)].
  rewrite gamma_known_rate_seq. unfold total. f_equal; (apply sumR_perm || apply prodR_perm); apply Permutation_map; now apply Permutation_sym.
Qed.

(** There is no empty batch for the maximum, except with a bound that is not above the prior's. *)
Lemma uniform_pareto_reorder x n (bs bs' : list (R * R)) (prior : Pareto R) : Permutation ((x, n) :: bs) bs' ->
  let total := uniform_pareto Rmax (maxR x (map fst bs)) (sumR (n :: map snd bs)) prior in
  fold_left (fun p b => uniform_pareto Rmax (fst b) (snd b) p) ((x, n) :: bs) prior = total /\
  fold_left (fun p b => uniform_pareto Rmax (fst b) (snd b) p) bs' prior = total /\
  (forall y, y <= Pareto_x_m prior -> uniform_pareto Rmax y 0 prior = prior).
Proof.
  intros Hp total. split; [apply uniform_pareto_batch|]. split.
  - unfold total. rewrite <- uniform_pareto_batch, !uniform_pareto_seq. f_equal. 2: f_equal.
    + apply maxR_perm, Permutation_map. now apply Permutation_sym.
    + apply sumR_perm, Permutation_map. now apply Permutation_sym.
  - intros y Hy. unfold uniform_pareto. rewrite Rmax_left by auto. destruct prior; simpl. f_equal. ring.
Qed.
