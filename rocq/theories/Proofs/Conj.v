(** Conjugacy: each scalar model function returns the Bayes posterior. *)

From Coq Require Import Reals Lra Psatz ZArith List Lia Classical.
From Coquelicot Require Import Coquelicot.
From Verif Require Import Model.Num Model.Dists Model.ScipyDist Model.Models Spec.Special Spec.Densities Spec.Bayes.
From Verif Require Import Analysis.Improper Analysis.RealAux Analysis.GammaBeta Analysis.GammaFacts Analysis.Gauss Proofs.Pdfs.
From Coq Require Import List.
Import ListNotations.
Open Scope R_scope.

Lemma conj_bayes (I : R -> Prop) Fa Fb (E : Ends I Fa Fb) (prior lik post k : R -> R) (c C : R) :
  0 < c -> 0 < C ->
  (forall t, I t -> prior t * lik t = C * k t) ->
  (forall t, I t -> post t = c * k t) ->
  (forall t, ~ I t -> prior t = 0 /\ post t = 0) ->
  is_RInt_gen k Fa Fb (/ c) ->
  bayes_posterior Fa Fb prior lik post.
Proof.
  intros Hc HC Hprior Hpost Hout Hk.
  pose proof (e_Fa _ _ _ E). pose proof (e_Fb _ _ _ E).
  exists (C / c). split; [|split].
  - now apply Rdiv_lt_0_compat.
  - apply (is_RInt_gen_ext_on _ _ _ E (fun t => C * k t)).
    + intros t Ht. symmetry. now apply Hprior.
    + unfold Rdiv. apply is_RInt_gen_mult_l; auto; typeclasses eauto.
  - intros t. destruct (classic (I t)) as [Ht|Ht].
    + rewrite Hprior, Hpost by auto. field. lra.
    + destruct (Hout t Ht) as [-> ->]. unfold Rdiv; ring.
Qed.

(** ** Likelihoods of a list of observations *)
Lemma likelihood_nil {P O} (lik : P -> O -> R) t : likelihood lik [] t = 1.
Proof. reflexivity. Qed.

Lemma likelihood_cons {P O} (lik : P -> O -> R) o l t : likelihood lik (o :: l) t = lik t o * likelihood lik l t.
Proof. reflexivity. Qed.

Lemma likelihood_app {P O} (lik : P -> O -> R) l1 l2 t :
  likelihood lik (l1 ++ l2) t = likelihood lik l1 t * likelihood lik l2 t.
Proof.
  induction l1 as [|o l IH]; simpl. rewrite likelihood_nil; ring.
  rewrite !likelihood_cons, IH. ring.
Qed.

Lemma sumN_cons x l : sumN (x :: l) = (x + sumN l)%nat.
Proof. reflexivity. Qed.
Lemma sumR_cons x l : sumR (x :: l) = x + sumR l.
Proof. reflexivity. Qed.
Lemma prodR_cons x l : prodR (x :: l) = x * prodR l.
Proof. reflexivity. Qed.
Lemma length_INR_cons {A} (x : A) l : INR (length (x :: l)) = 1 + INR (length l).
Proof. simpl length. rewrite S_INR. ring. Qed.

(** A likelihood that factors observation-wise as constant times kernel. *)
Lemma likelihood_factor {P O} (lik : P -> O -> R) (ok : O -> Prop) (c : O -> R) (t : P)
  (K : list O -> R) (K0 : K [] = 1) :
  (forall o, ok o -> 0 < c o) ->
  (forall o l, ok o -> Forall ok l -> lik t o * K l = c o * K (o :: l)) ->
  forall data, Forall ok data ->
    likelihood lik data t = prodR (map c data) * K data /\ 0 < prodR (map c data).
Proof.
  intros Hc HK data H. induction H as [|o l Ho Hl [IH IHp]].
  - rewrite likelihood_nil, K0. simpl. lra.
  - rewrite likelihood_cons, IH. simpl. split.
    + rewrite <- Rmult_assoc, (Rmult_comm (lik t o)), Rmult_assoc, HK by auto. ring.
    + apply Rmult_lt_0_compat; auto.
Qed.

(** ** Beta priors *)
Notation Fone := (at_left 1).

Lemma inv_Beta_pos a b : 0 < a -> 0 < b -> 0 < / Beta_fun a b.
Proof. intros. apply Rinv_0_lt_compat. now apply Beta_fun_pos. Qed.

Lemma beta_conj (prior post : Beta R) (lik : R -> R) (C : R) (u v : R) :
  0 < Beta_alpha prior -> 0 < Beta_beta prior -> 0 <= u -> 0 <= v -> 0 < C ->
  post = mkBeta (Beta_alpha prior + u) (Beta_beta prior + v) ->
  (forall t, 0 < t < 1 -> lik t = C * (Rpower t u * Rpower (1 - t) v)) ->
  bayes_posterior Fpos0 Fone (pdf (Beta_dist prior)) lik (pdf (Beta_dist post)).
Proof.
  intros Ha Hb Hu Hv HC -> Hlik. destruct prior as [a b]; simpl in *.
  apply (conj_bayes (fun t => 0 < t < 1) _ _ (ends_open 0 1 Rlt_0_1) _ _ _
     (fun t => Rpower t (a + u - 1) * Rpower (1 - t) (b + v - 1)) (/ Beta_fun (a + u) (b + v)) (/ Beta_fun a b * C)).
  - apply inv_Beta_pos; lra.
  - apply Rmult_lt_0_compat; auto. now apply inv_Beta_pos.
  - intros t Ht. unfold Beta_dist; simpl Beta_alpha; simpl Beta_beta. rewrite beta_pdf, Hlik by auto.
    replace (a + u - 1) with (a - 1 + u) by ring. replace (b + v - 1) with (b - 1 + v) by ring.
    rewrite !Rpower_plus. ring.
  - intros t Ht. unfold Beta_dist; simpl Beta_alpha; simpl Beta_beta. now rewrite beta_pdf.
  - intros t Ht. unfold Beta_dist. now rewrite !beta_pdf_out.
  - rewrite Rinv_inv. apply is_RInt_gen_Beta; lra.
Qed.

(** C01 *)
Lemma binomial_likelihood (data : list (nat * nat)) t : 0 < t < 1 ->
  Forall (fun o => (snd o <= fst o)%nat) data ->
  likelihood (fun p o => pmf (Binomial_dist (mkBinomial (INR (fst o)) p)) (Z.of_nat (snd o))) data t
  = prodR (map (fun o => choose (INR (fst o)) (snd o)) data)
    * (Rpower t (INR (sumN (map snd data))) * Rpower (1 - t) (INR (sumN (map fst data)) - INR (sumN (map snd data))))
  /\ 0 < prodR (map (fun o => choose (INR (fst o)) (snd o)) data)
  /\ 0 <= INR (sumN (map fst data)) - INR (sumN (map snd data)).
Proof.
  intros Ht H.
  assert (Hs : (sumN (map snd data) <= sumN (map fst data))%nat).
  { induction H as [|[n x] l Ho Hl IH]; simpl in *; unfold sumN in *; simpl in *; lia. }
  apply le_INR in Hs.
  destruct (likelihood_factor (fun p o => pmf (Binomial_dist (mkBinomial (INR (fst o)) p)) (Z.of_nat (snd o)))
    (fun o => (snd o <= fst o)%nat) (fun o => choose (INR (fst o)) (snd o)) t
    (fun d => Rpower t (INR (sumN (map snd d))) * Rpower (1 - t) (INR (sumN (map fst d)) - INR (sumN (map snd d))))) with (data := data) as [-> Hp]; auto.
  - simpl. rewrite Rminus_0_r, !Rpower_0. ring.
  - intros [n x] Hx. now apply choose_pos.
  - intros [n x] l Hx _. simpl in Hx. unfold Binomial_dist; simpl Binomial_n; simpl Binomial_p.
    simpl fst; simpl snd. rewrite binom_pmf by auto. simpl map. rewrite !sumN_cons, !plus_INR.
    rewrite <- (Rpower_INR t x), <- (Rpower_INR (1 - t) (n - x)) by lra. rewrite minus_INR by auto.
    replace (INR n + INR (sumN (map fst l)) - (INR x + INR (sumN (map snd l))))
      with ((INR n - INR x) + (INR (sumN (map fst l)) - INR (sumN (map snd l)))) by ring.
    rewrite !Rpower_plus. ring.
  - split; auto. split; auto. lra.
Qed.

Lemma binomial_beta_bayes (prior : Beta R) (data : list (nat * nat)) :
  0 < Beta_alpha prior -> 0 < Beta_beta prior ->
  Forall (fun o => (snd o <= fst o)%nat) data ->
  bayes_posterior Fpos0 Fone (pdf (Beta_dist prior))
    (likelihood (fun p o => pmf (Binomial_dist (mkBinomial (INR (fst o)) p)) (Z.of_nat (snd o))) data)
    (pdf (Beta_dist (binomial_beta (INR (sumN (map fst data))) (INR (sumN (map snd data))) prior))).
Proof.
  intros Ha Hb H. assert (Hh : 0 < /2 < 1) by lra.
  destruct (binomial_likelihood data (/2) Hh H) as (_ & Hp & Hs).
  eapply beta_conj; try assumption.
  - apply pos_INR.
  - exact Hs.
  - exact Hp.
  - reflexivity.
  - intros t Ht. now apply binomial_likelihood.
Qed.

(** C02 *)
Lemma negative_binomial_beta_bayes (prior : Beta R) (r : R) (data : list nat) :
  0 < Beta_alpha prior -> 0 < Beta_beta prior -> 0 < r ->
  bayes_posterior Fpos0 Fone (pdf (Beta_dist prior))
    (likelihood (fun p x => pmf (NegativeBinomial_dist (mkNegativeBinomial r p)) (Z.of_nat x)) data)
    (pdf (Beta_dist (negative_binomial_beta r (INR (length data)) (INR (sumN data)) prior))).
Proof.
  intros Ha Hb Hr.
  assert (HL : forall t, 0 < t < 1 ->
    likelihood (fun p x => pmf (NegativeBinomial_dist (mkNegativeBinomial r p)) (Z.of_nat x)) data t =
    prodR (map (fun x => rising r x / INR (fact x)) data)
     * (Rpower t (r * INR (length data)) * Rpower (1 - t) (INR (sumN data))) /\
    0 < prodR (map (fun x => rising r x / INR (fact x)) data)).
  { intros t Ht.
    apply (likelihood_factor (fun p x => pmf (NegativeBinomial_dist (mkNegativeBinomial r p)) (Z.of_nat x)) (fun _ => True)
      (fun x => rising r x / INR (fact x)) t
      (fun d => Rpower t (r * INR (length d)) * Rpower (1 - t) (INR (sumN d)))).
    - simpl. rewrite Rmult_0_r, !Rpower_0. ring.
    - intros x _. apply Rdiv_lt_0_compat. now apply rising_pos. apply fact_pos.
    - intros x l _ _. unfold NegativeBinomial_dist; simpl NegativeBinomial_n; simpl NegativeBinomial_p.
      rewrite nbinom_pmf, sumN_cons, plus_INR, length_INR_cons, Rmult_plus_distr_l, Rmult_1_r.
      rewrite <- (Rpower_INR (1 - t) x), !Rpower_plus by lra. ring.
    - apply Forall_forall. auto. }
  eapply beta_conj with (u := r * INR (length data)) (v := INR (sumN data)); try assumption.
  - apply Rmult_le_pos. lra. apply pos_INR.
  - apply pos_INR.
  - apply (HL (/2)). lra.
  - reflexivity.
  - intros t Ht. now apply HL.
Qed.

(** C03: one observation of Geometric(p, one_start) is a number of trials k >= 1
    reported as k (one_start) or k - 1. *)
Lemma geometric_beta_bayes (prior : Beta R) (one_start : bool) (data : list Z) :
  0 < Beta_alpha prior -> 0 < Beta_beta prior ->
  Forall (fun z => (if one_start then 1 else 0) <= z)%Z data ->
  bayes_posterior Fpos0 Fone (pdf (Beta_dist prior))
    (likelihood (fun p z => pmf (Geometric_dist (mkGeometric p one_start)) z) data)
    (pdf (Beta_dist (geometric_beta (sumR (map IZR data)) (INR (length data)) prior one_start))).
Proof.
  intros Ha Hb H.
  set (o := (if one_start then 1 else 0)%Z) in *.
  assert (Hsum : forall l, Forall (fun z => o <= z)%Z l -> 0 <= sumR (map IZR l) - IZR o * INR (length l)).
  { induction 1 as [|z l Hz Hl IH]. simpl. lra.
    simpl map. rewrite sumR_cons, length_INR_cons. apply IZR_le in Hz. nra. }
  assert (HL : forall t, 0 < t < 1 ->
    likelihood (fun p z => pmf (Geometric_dist (mkGeometric p one_start)) z) data t =
    prodR (map (fun _ : Z => 1) data) * (Rpower t (INR (length data)) * Rpower (1 - t) (sumR (map IZR data) - IZR o * INR (length data))) /\
    0 < prodR (map (fun _ : Z => 1) data)).
  { intros t Ht.
    apply (likelihood_factor (fun p z => pmf (Geometric_dist (mkGeometric p one_start)) z) (fun z => (o <= z)%Z) (fun _ => 1) t
      (fun d => Rpower t (INR (length d)) * Rpower (1 - t) (sumR (map IZR d) - IZR o * INR (length d)))); auto.
    - simpl. replace (0 - IZR o * 0) with 0 by ring. rewrite !Rpower_0. ring.
    - intros; lra.
    - intros z l Hz _.
      assert (Hpmf : pmf (Geometric_dist (mkGeometric t one_start)) z = Rpower (1 - t) (IZR z - IZR o) * t).
      { unfold Geometric_dist; simpl Geometric_one_start; simpl Geometric_p.
        pose (k := Z.to_nat (z - o + 1)).
        assert (Hk : (1 <= k)%nat) by (unfold k; lia).
        replace (if one_start then nlit 0 else nlit (-1)) with (IZR (o - 1)) by (unfold o; destruct one_start; reflexivity).
        replace z with (Z.of_nat k + (o - 1))%Z at 1 by (unfold k; lia).
        rewrite geom_pmf by auto. f_equal.
        rewrite <- Rpower_INR by lra. f_equal. rewrite INR_IZR_INZ, <- minus_IZR. f_equal. unfold k; lia. }
      rewrite Hpmf. simpl map. rewrite sumR_cons, length_INR_cons.
      replace (IZR z + sumR (map IZR l) - IZR o * (1 + INR (length l)))
        with ((IZR z - IZR o) + (sumR (map IZR l) - IZR o * INR (length l))) by ring.
      rewrite !Rpower_plus, Rpower_1 by lra. ring. }
  apply beta_conj with (C := prodR (map (fun _ : Z => 1) data)) (u := INR (length data)) (v := sumR (map IZR data) - IZR o * INR (length data)); try assumption.
  - apply pos_INR.
  - now apply Hsum.
  - apply (HL (/2)). lra.
  - unfold geometric_beta, o. destruct one_start; simpl; f_equal; ring.
  - intros t Ht. now apply HL.
Qed.

(** ** Gamma priors *)
Lemma gamma_conj (prior post : Gamma R) (lik : R -> R) (C : R) (u v : R) :
  0 < Gamma_alpha prior -> 0 < Gamma_beta prior -> 0 <= u -> 0 <= v -> 0 < C ->
  post = mkGamma (Gamma_alpha prior + u) (Gamma_beta prior + v) ->
  (forall t, 0 < t -> lik t = C * (Rpower t u * exp (- (v * t)))) ->
  bayes_posterior Fpos0 Finf (pdf (Gamma_dist prior)) lik (pdf (Gamma_dist post)).
Proof.
  intros Ha Hb Hu Hv HC -> Hlik. destruct prior as [a b]; simpl in Ha, Hb.
  unfold Gamma_dist; simpl Gamma_alpha; simpl Gamma_beta. change (nlit 1) with 1. change (ndiv 1 b) with (1 / b).
  change (ndiv 1 (b + v)) with (1 / (b + v)).
  pose proof (Gamma_fun_pos a Ha). pose proof (Gamma_fun_pos (a + u) ltac:(lra)).
  pose proof (Rpower_pos b a). pose proof (Rpower_pos (b + v) (a + u)).
  apply (conj_bayes (fun t => 0 < t) _ _ ends_pos _ _ _
     (fun t => Rpower t (a + u - 1) * exp (- ((b + v) * t))) (Rpower (b + v) (a + u) / Gamma_fun (a + u)) (Rpower b a / Gamma_fun a * C)).
  - apply Rdiv_lt_0_compat; auto.
  - apply Rmult_lt_0_compat; auto. apply Rdiv_lt_0_compat; auto.
  - intros t Ht. rewrite gamma_pdf, Hlik by auto.
    replace (a + u - 1) with (a - 1 + u) by ring.
    replace (- ((b + v) * t)) with (- (b * t) + - (v * t)) by ring.
    rewrite Rpower_plus, exp_plus. ring.
  - intros t Ht. rewrite gamma_pdf; auto. lra.
  - intros t Ht. split; apply gamma_pdf_out; lra.
  - replace (/ (Rpower (b + v) (a + u) / Gamma_fun (a + u))) with (Gamma_fun (a + u) / Rpower (b + v) (a + u)) by (field; lra).
    apply is_RInt_gen_Gamma_scaled; lra.
Qed.

Lemma prodR_const1 {A} (l : list A) : prodR (map (fun _ => 1) l) = 1.
Proof. induction l; simpl; auto. unfold prodR in *. simpl. rewrite IHl. ring. Qed.

(** C04 *)
Lemma poisson_gamma_bayes (prior : Gamma R) (data : list nat) :
  0 < Gamma_alpha prior -> 0 < Gamma_beta prior ->
  bayes_posterior Fpos0 Finf (pdf (Gamma_dist prior))
    (likelihood (fun lam x => pmf (Poisson_dist (mkPoisson lam)) (Z.of_nat x)) data)
    (pdf (Gamma_dist (poisson_gamma (INR (sumN data)) (INR (length data)) prior))).
Proof.
  intros Ha Hb.
  assert (HL : forall t, 0 < t ->
    likelihood (fun lam x => pmf (Poisson_dist (mkPoisson lam)) (Z.of_nat x)) data t =
    prodR (map (fun x => / INR (fact x)) data) * (Rpower t (INR (sumN data)) * exp (- (INR (length data) * t))) /\
    0 < prodR (map (fun x => / INR (fact x)) data)).
  { intros t Ht.
    apply (likelihood_factor (fun lam x => pmf (Poisson_dist (mkPoisson lam)) (Z.of_nat x)) (fun _ => True) (fun x => / INR (fact x)) t
      (fun d => Rpower t (INR (sumN d)) * exp (- (INR (length d) * t)))).
    - simpl. rewrite Rmult_0_l, Ropp_0, Rpower_0, exp_0. ring.
    - intros x _. apply Rinv_0_lt_compat. apply fact_pos.
    - intros x l _ _. unfold Poisson_dist; simpl Poisson_lam.
      rewrite poisson_pmf, sumN_cons, plus_INR, length_INR_cons.
      replace (- ((1 + INR (length l)) * t)) with (- t + - (INR (length l) * t)) by ring.
      rewrite exp_plus, Rpower_plus, (Rpower_INR t x) by auto. unfold Rdiv. ring.
    - apply Forall_forall. auto. }
  eapply gamma_conj; try assumption.
  - apply pos_INR.
  - apply (pos_INR (length data)).
  - apply (HL 1). lra.
  - reflexivity.
  - intros t Ht. now apply HL.
Qed.

Lemma sumR_nonneg l : Forall (fun x => 0 <= x) l -> 0 <= sumR l.
Proof. induction 1. unfold sumR; simpl; lra. rewrite sumR_cons. lra. Qed.

Lemma Forall_lt_le l : Forall (fun x => 0 < x) l -> Forall (fun x => 0 <= x) l.
Proof. apply Forall_impl. intros; lra. Qed.

(** C06 *)
Lemma gamma_known_shape_bayes (prior : Gamma R) (alpha : R) (data : list R) :
  0 < Gamma_alpha prior -> 0 < Gamma_beta prior -> 0 < alpha -> Forall (fun x => 0 < x) data ->
  bayes_posterior Fpos0 Finf (pdf (Gamma_dist prior))
    (likelihood (fun rate x => pdf (Gamma_dist (mkGamma alpha rate)) x) data)
    (pdf (Gamma_dist (gamma_known_shape (sumR data) (INR (length data)) alpha prior))).
Proof.
  intros Ha Hb Hal H.
  set (c := fun x => Rpower x (alpha - 1) / Gamma_fun alpha).
  assert (HL : forall t, 0 < t ->
    likelihood (fun rate x => pdf (Gamma_dist (mkGamma alpha rate)) x) data t =
    prodR (map c data) * (Rpower t (INR (length data) * alpha) * exp (- (sumR data * t))) /\
    0 < prodR (map c data)).
  { intros t Ht.
    apply (likelihood_factor (fun rate x => pdf (Gamma_dist (mkGamma alpha rate)) x) (fun x => 0 < x) c t
      (fun d => Rpower t (INR (length d) * alpha) * exp (- (sumR d * t)))); auto.
    - simpl. rewrite !Rmult_0_l, Ropp_0, Rpower_0, exp_0. ring.
    - intros x Hx. apply Rdiv_lt_0_compat. apply Rpower_pos. now apply Gamma_fun_pos.
    - intros x l Hx _. unfold Gamma_dist; simpl Gamma_alpha; simpl Gamma_beta.
      change (ndiv (nlit 1) t) with (1 / t). rewrite gamma_pdf by auto. unfold c.
      rewrite sumR_cons, length_INR_cons.
      replace (- ((x + sumR l) * t)) with (- (t * x) + - (sumR l * t)) by ring.
      replace ((1 + INR (length l)) * alpha) with (alpha + INR (length l) * alpha) by ring.
      rewrite exp_plus, Rpower_plus. unfold Rdiv. ring. }
  eapply gamma_conj with (u := INR (length data) * alpha) (v := sumR data); try assumption.
  - apply Rmult_le_pos. apply (pos_INR (length data)). lra.
  - apply (sumR_nonneg data). now apply Forall_lt_le.
  - apply (HL 1). lra.
  - reflexivity.
  - intros t Ht. now apply HL.
Qed.

(** C07 *)
Lemma inverse_gamma_known_rate_bayes (prior : Gamma R) (alpha : R) (data : list R) :
  0 < Gamma_alpha prior -> 0 < Gamma_beta prior -> 0 < alpha -> Forall (fun x => 0 < x) data ->
  bayes_posterior Fpos0 Finf (pdf (Gamma_dist prior))
    (likelihood (fun rate x => pdf (InverseGamma_dist (mkInverseGamma alpha rate)) x) data)
    (pdf (Gamma_dist (inverse_gamma_known_rate (sumR (map Rinv data)) (INR (length data)) alpha prior))).
Proof.
  intros Ha Hb Hal H.
  set (c := fun x => Rpower x (- alpha - 1) / Gamma_fun alpha).
  assert (HL : forall t, 0 < t ->
    likelihood (fun rate x => pdf (InverseGamma_dist (mkInverseGamma alpha rate)) x) data t =
    prodR (map c data) * (Rpower t (INR (length data) * alpha) * exp (- (sumR (map Rinv data) * t))) /\
    0 < prodR (map c data)).
  { intros t Ht.
    apply (likelihood_factor (fun rate x => pdf (InverseGamma_dist (mkInverseGamma alpha rate)) x) (fun x => 0 < x) c t
      (fun d => Rpower t (INR (length d) * alpha) * exp (- (sumR (map Rinv d) * t)))); auto.
    - simpl. rewrite !Rmult_0_l, Ropp_0, Rpower_0, exp_0. ring.
    - intros x Hx. apply Rdiv_lt_0_compat. apply Rpower_pos. now apply Gamma_fun_pos.
    - intros x l Hx _. unfold InverseGamma_dist; simpl InverseGamma_alpha; simpl InverseGamma_beta.
      rewrite invgamma_pdf by auto. unfold c. simpl map.
      rewrite sumR_cons, length_INR_cons.
      replace (- ((/ x + sumR (map Rinv l)) * t)) with (- (t / x) + - (sumR (map Rinv l) * t)) by (unfold Rdiv; ring).
      replace ((1 + INR (length l)) * alpha) with (alpha + INR (length l) * alpha) by ring.
      rewrite exp_plus, Rpower_plus. unfold Rdiv. ring. }
  eapply gamma_conj with (u := INR (length data) * alpha) (v := sumR (map Rinv data)); try assumption.
  - apply Rmult_le_pos. apply (pos_INR (length data)). lra.
  - apply (sumR_nonneg (map Rinv data)). apply Forall_map. revert H. apply Forall_impl. intros x Hx.
    left. now apply Rinv_0_lt_compat.
  - apply (HL 1). lra.
  - reflexivity.
  - intros t Ht. now apply HL.
Qed.

(** C12 *)
Lemma pareto_gamma_bayes (prior : Gamma R) (x_m : R) (data : list R) :
  0 < Gamma_alpha prior -> 0 < Gamma_beta prior -> 0 < x_m -> Forall (fun x => x_m <= x) data ->
  bayes_posterior Fpos0 Finf (pdf (Gamma_dist prior))
    (likelihood (fun shape x => pdf (Pareto_dist (mkPareto x_m shape)) x) data)
    (pdf (Gamma_dist (pareto_gamma ln (INR (length data)) (sumR (map ln data)) x_m prior))).
Proof.
  intros Ha Hb Hx H.
  set (c := fun x => / x).
  assert (HL : forall t, 0 < t ->
    likelihood (fun shape x => pdf (Pareto_dist (mkPareto x_m shape)) x) data t =
    prodR (map c data) * (Rpower t (INR (length data)) * exp (- ((sumR (map ln data) - INR (length data) * ln x_m) * t))) /\
    0 < prodR (map c data)).
  { intros t Ht.
    apply (likelihood_factor (fun shape x => pdf (Pareto_dist (mkPareto x_m shape)) x) (fun x => x_m <= x) c t
      (fun d => Rpower t (INR (length d)) * exp (- ((sumR (map ln d) - INR (length d) * ln x_m) * t)))); auto.
    - simpl. rewrite !Rmult_0_l, Rminus_0_r, Rmult_0_l, Ropp_0, Rpower_0, exp_0. ring.
    - intros x Hxx. apply Rinv_0_lt_compat. lra.
    - intros x l Hxx _. unfold Pareto_dist; simpl Pareto_alpha; simpl Pareto_x_m.
      rewrite pareto_pdf by auto. unfold c. simpl map.
      rewrite sumR_cons, length_INR_cons.
      replace (- ((ln x + sumR (map ln l) - (1 + INR (length l)) * ln x_m) * t))
        with (- (t * ln x) + t * ln x_m + - ((sumR (map ln l) - INR (length l) * ln x_m) * t)) by ring.
      rewrite !exp_plus, (exp_Ropp (t * ln x)). fold (Rpower x t). fold (Rpower x_m t).
      rewrite (Rpower_succ x t), Rpower_plus, Rpower_1 by lra.
      pose proof (Rpower_pos x t). field. lra. }
  apply gamma_conj with (C := prodR (map c data)) (u := INR (length data)) (v := sumR (map ln data) - INR (length data) * ln x_m); try assumption.
  - apply pos_INR.
  - clear HL. induction H as [|x l Hxx Hl IH]. simpl; lra. simpl map. rewrite sumR_cons, length_INR_cons.
    assert (ln x_m <= ln x). { destruct Hxx as [Hxx|<-]. left. now apply ln_increasing. lra. } lra.
  - apply (HL 1). lra.
  - unfold pareto_gamma. simpl. f_equal. ring.
  - intros t Ht. now apply HL.
Qed.

(** The library's exponential update is not Bayes, but it is with the two
    statistics exchanged; see C05. *)
Lemma exponential_rate_bayes (prior : Gamma R) (data : list R) :
  0 < Gamma_alpha prior -> 0 < Gamma_beta prior -> Forall (fun x => 0 <= x) data ->
  bayes_posterior Fpos0 Finf (pdf (Gamma_dist prior))
    (likelihood (fun rate x => pdf (S_expon_scale (/ rate)) x) data)
    (pdf (Gamma_dist (exponential_gamma (INR (length data)) (sumR data) prior))).
Proof.
  intros Ha Hb H.
  assert (HL : forall t, 0 < t ->
    likelihood (fun rate x => pdf (S_expon_scale (/ rate)) x) data t =
    prodR (map (fun _ => 1) data) * (Rpower t (INR (length data)) * exp (- (sumR data * t))) /\
    0 < prodR (map (fun _ : R => 1) data)).
  { intros t Ht.
    apply (likelihood_factor (fun rate x => pdf (S_expon_scale (/ rate)) x) (fun x => 0 <= x) (fun _ => 1) t
      (fun d => Rpower t (INR (length d)) * exp (- (sumR d * t)))); auto.
    - simpl. rewrite !Rmult_0_l, Ropp_0, Rpower_0, exp_0. ring.
    - intros; lra.
    - intros x l Hx _. rewrite expon_pdf; auto. 2: now apply Rinv_0_lt_compat.
      rewrite sumR_cons, length_INR_cons, Rpower_plus, Rpower_1 by auto.
      replace (- ((x + sumR l) * t)) with (- (x / / t) + - (sumR l * t)) by (field; lra).
      rewrite exp_plus. field. lra. }
  eapply gamma_conj; try assumption.
  - apply (pos_INR (length data)).
  - apply (sumR_nonneg data); auto.
  - apply (HL 1). lra.
  - reflexivity.
  - intros t Ht. now apply HL.
Qed.

(** ** Inverse gamma priors *)
Lemma invgamma_conj (a b u v : R) (lik : R -> R) (C : R) :
  0 < a -> 0 < b -> 0 <= u -> 0 <= v -> 0 < C ->
  (forall t, 0 < t -> lik t = C * (Rpower t (- u) * exp (- (v / t)))) ->
  bayes_posterior Fpos0 Finf (pdf (S_invgamma_scale a b)) lik (pdf (S_invgamma_scale (a + u) (b + v))).
Proof.
  intros Ha Hb Hu Hv HC Hlik.
  pose proof (Gamma_fun_pos a Ha). pose proof (Gamma_fun_pos (a + u) ltac:(lra)).
  pose proof (Rpower_pos b a). pose proof (Rpower_pos (b + v) (a + u)).
  apply (conj_bayes (fun t => 0 < t) _ _ ends_pos _ _ _
     (fun t => Rpower t (- (a + u) - 1) * exp (- ((b + v) / t))) (Rpower (b + v) (a + u) / Gamma_fun (a + u)) (Rpower b a / Gamma_fun a * C)).
  - apply Rdiv_lt_0_compat; auto.
  - apply Rmult_lt_0_compat; auto. apply Rdiv_lt_0_compat; auto.
  - intros t Ht. rewrite invgamma_pdf, Hlik by auto.
    replace (- (a + u) - 1) with (- a - 1 + - u) by ring.
    replace (- ((b + v) / t)) with (- (b / t) + - (v / t)) by (field; lra).
    rewrite Rpower_plus, exp_plus. ring.
  - intros t Ht. rewrite invgamma_pdf; auto. lra.
  - intros t Ht. split; apply invgamma_pdf_out; lra.
  - replace (/ (Rpower (b + v) (a + u) / Gamma_fun (a + u))) with (Gamma_fun (a + u) / Rpower (b + v) (a + u)) by (field; lra).
    apply is_RInt_gen_InvGamma; lra.
Qed.

(** C13 *)
Lemma weibull_bayes (prior : InverseGamma R) (beta : R) (data : list R) :
  0 < InverseGamma_alpha prior -> 0 < InverseGamma_beta prior -> 0 < beta -> Forall (fun x => 0 < x) data ->
  bayes_posterior Fpos0 Finf (pdf (InverseGamma_dist prior))
    (likelihood (fun theta x => pdf (Weibull_dist (mkWeibull beta theta)) x) data)
    (pdf (InverseGamma_dist (weibull_inverse_gamma_known_shape (INR (length data)) (sumR (map (fun x => Rpower x beta) data)) prior))).
Proof.
  intros Ha Hb Hbe H.
  set (c := fun x => beta * Rpower x (beta - 1)).
  assert (HL : forall t, 0 < t ->
    likelihood (fun theta x => pdf (Weibull_dist (mkWeibull beta theta)) x) data t =
    prodR (map c data) * (Rpower t (- INR (length data)) * exp (- (sumR (map (fun x => Rpower x beta) data) / t))) /\
    0 < prodR (map c data)).
  { intros t Ht.
    apply (likelihood_factor (fun theta x => pdf (Weibull_dist (mkWeibull beta theta)) x) (fun x => 0 < x) c t
      (fun d => Rpower t (- INR (length d)) * exp (- (sumR (map (fun x => Rpower x beta) d) / t)))); auto.
    - simpl. replace (- (0 / t)) with 0 by (unfold Rdiv; ring). rewrite Ropp_0, Rpower_0, exp_0. ring.
    - intros x Hx. apply Rmult_lt_0_compat; auto. apply Rpower_pos.
    - intros x l Hx _. unfold Weibull_dist; simpl Weibull_beta; simpl Weibull_theta.
      change (npow t (ndiv (nlit 1) beta)) with (Rpower t (1 / beta)).
      rewrite weibull_pdf; auto. 2: apply Rpower_pos.
      rewrite Rpower_mult. replace (1 / beta * beta) with 1 by (field; lra). rewrite Rpower_1 by auto.
      simpl map. rewrite sumR_cons, length_INR_cons. unfold c.
      replace (- (1 + INR (length l))) with (- (1) + - INR (length l)) by ring.
      replace (- ((Rpower x beta + sumR (map (fun x => Rpower x beta) l)) / t))
        with (- (Rpower x beta / t) + - (sumR (map (fun x => Rpower x beta) l) / t)) by (field; lra).
      rewrite exp_plus, Rpower_plus, (Rpower_Ropp t 1), Rpower_1 by auto. unfold Rdiv. ring. }
  unfold InverseGamma_dist, weibull_inverse_gamma_known_shape; simpl InverseGamma_alpha; simpl InverseGamma_beta.
  apply (invgamma_conj _ _ (INR (length data)) (sumR (map (fun x => Rpower x beta) data)) _ (prodR (map c data))); auto.
  - apply pos_INR.
  - apply sumR_nonneg. apply Forall_map. apply Forall_forall. intros. left. apply Rpower_pos.
  - apply (HL 1). lra.
  - intros t Ht. now apply HL.
Qed.

(** C09 *)
Lemma normal_known_mean_likelihood (mu : R) (data : list R) v : 0 < v ->
  likelihood (fun v x => pdf (Normal_dist (mkNormal mu (sqrt v))) x) data v =
  prodR (map (fun _ => / sqrt (2 * PI)) data)
   * (Rpower v (- (INR (length data) / 2)) * exp (- (/2 * (sumR (map (fun x => x ^ 2) data) - 2 * mu * sumR data + INR (length data) * mu ^ 2) / v)))
  /\ 0 < prodR (map (fun _ : R => / sqrt (2 * PI)) data).
Proof.
  intros Hv.
  apply (likelihood_factor (fun v x => pdf (Normal_dist (mkNormal mu (sqrt v))) x) (fun _ => True) (fun _ => / sqrt (2 * PI)) v
     (fun d => Rpower v (- (INR (length d) / 2)) * exp (- (/2 * (sumR (map (fun x => x ^ 2) d) - 2 * mu * sumR d + INR (length d) * mu ^ 2) / v)))).
  - simpl. replace (- (0 / 2)) with 0 by field. rewrite Rpower_0.
    match goal with |- _ * exp ?e = _ => replace e with 0 by (field; lra) end. rewrite exp_0. ring.
  - intros _ _. apply Rinv_0_lt_compat. apply sqrt_2pi_pos.
  - intros x l _ _. unfold Normal_dist; simpl Normal_mu; simpl Normal_sigma.
    rewrite norm_pdf by now apply sqrt_lt_R0. rewrite pow2_sqrt by lra.
    simpl map. rewrite !sumR_cons, length_INR_cons.
    replace (- ((1 + INR (length l)) / 2)) with (- / 2 + - (INR (length l) / 2)) by field.
    match goal with |- _ * exp ?e1 * (_ * exp ?e2) = _ * (_ * exp ?e3) => replace e3 with (e1 + e2) by (field; lra) end.
    rewrite exp_plus, Rpower_plus, (Rpower_Ropp v (/2)), Rpower_sqrt by auto.
    rewrite Rinv_mult. ring.
  - apply Forall_forall. auto.
Qed.

Lemma sq_dev_nonneg (mu : R) data : 0 <= sumR (map (fun x => x ^ 2) data) - 2 * mu * sumR data + INR (length data) * mu ^ 2.
Proof.
  induction data as [|x l IH]. simpl. lra. simpl map. rewrite !sumR_cons, length_INR_cons.
  assert (H : 0 <= (x - mu) ^ 2) by apply pow2_ge_0.
  cbv beta in *. set (S := sumR (map _ l)) in *. set (T := sumR l) in *. set (L := INR (length l)) in *. clearbody S T L.
  replace (x ^ 2 + S - 2 * mu * (x + T) + (1 + L) * mu ^ 2) with ((x - mu) ^ 2 + (S - 2 * mu * T + L * mu ^ 2)) by ring. lra.
Qed.

Lemma normal_known_mean_ig_bayes (prior : InverseGamma R) (mu : R) (data : list R) :
  0 < InverseGamma_alpha prior -> 0 < InverseGamma_beta prior ->
  bayes_posterior Fpos0 Finf (pdf (InverseGamma_dist prior))
    (likelihood (fun v x => pdf (Normal_dist (mkNormal mu (sqrt v))) x) data)
    (pdf (InverseGamma_dist (normal_known_mean_inverse_gamma_prior (sumR data) (sumR (map (fun x => x ^ 2) data)) (INR (length data)) mu prior))).
Proof.
  intros Ha Hb.
  unfold InverseGamma_dist, normal_known_mean_inverse_gamma_prior; simpl InverseGamma_alpha; simpl InverseGamma_beta.
  eapply invgamma_conj with (u := INR (length data) / 2) (v := /2 * (sumR (map (fun x => x ^ 2) data) - 2 * mu * sumR data + INR (length data) * mu ^ 2)); try assumption.
  - assert (0 <= INR (length data)) by apply pos_INR. simpl. lra.
  - pose proof (sq_dev_nonneg mu data). simpl in *. lra.
  - apply (normal_known_mean_likelihood mu data 1). lra.
  - intros v Hv. now apply normal_known_mean_likelihood.
Qed.

(** ** C08: normal mean *)
Lemma normal_var_likelihood (var : R) (data : list R) (m : R) : 0 < var ->
  likelihood (fun m x => pdf (Normal_dist (mkNormal m (sqrt var))) x) data m =
  prodR (map (fun x => / (sqrt var * sqrt (2 * PI)) * exp (- (x ^ 2 / (2 * var)))) data)
   * exp (- ((INR (length data) * m ^ 2 - 2 * sumR data * m) / (2 * var)))
  /\ 0 < prodR (map (fun x => / (sqrt var * sqrt (2 * PI)) * exp (- (x ^ 2 / (2 * var)))) data).
Proof.
  intros Hv. assert (Hs : 0 < sqrt var) by now apply sqrt_lt_R0.
  apply (likelihood_factor (fun m x => pdf (Normal_dist (mkNormal m (sqrt var))) x) (fun _ => True) 
     (fun x => / (sqrt var * sqrt (2 * PI)) * exp (- (x ^ 2 / (2 * var)))) m
     (fun d => exp (- ((INR (length d) * m ^ 2 - 2 * sumR d * m) / (2 * var))))).
  - simpl. match goal with |- exp ?e = _ => replace e with 0 by (field; lra) end. apply exp_0.
  - intros x _. apply Rmult_lt_0_compat. apply Rinv_0_lt_compat. pose proof sqrt_2pi_pos. nra. apply exp_pos.
  - intros x l _ _. unfold Normal_dist; simpl Normal_mu; simpl Normal_sigma.
    rewrite norm_pdf by auto. rewrite pow2_sqrt by lra.
    rewrite !sumR_cons, length_INR_cons.
    match goal with |- ?a * exp ?e1 * exp ?e2 = ?a * exp ?e3 * exp ?e4 => transitivity (a * exp (e1 + e2)); [rewrite exp_plus; ring|replace (e1 + e2) with (e3 + e4) by (field; lra); rewrite exp_plus; ring] end.
  - apply Forall_forall. auto.
Qed.

Lemma normal_known_variance_bayes (prior : Normal R) (var : R) (data : list R) :
  0 < Normal_sigma prior -> 0 < var ->
  bayes_posterior Fminf Finf (pdf (Normal_dist prior))
    (likelihood (fun m x => pdf (Normal_dist (mkNormal m (sqrt var))) x) data)
    (pdf (Normal_dist (normal_known_variance (sumR data) (INR (length data)) var prior))).
Proof.
  intros Hs Hv. destruct prior as [mu s]; simpl in Hs.
  assert (Hn : 0 <= INR (length data)) by apply pos_INR. set (n := INR (length data)) in *.
  set (x := sumR data).
  assert (Hnv : 0 <= n / var) by (apply Rmult_le_pos; auto; left; now apply Rinv_0_lt_compat).
  assert (Hs2 : 0 < s ^ 2) by nra. assert (His2 : 0 < 1 / s ^ 2) by (apply Rdiv_lt_0_compat; lra).
  set (P := 1 / s ^ 2 + n / var). assert (HP : 0 < P) by (unfold P; lra).
  set (M := (mu / s ^ 2 + x / var) / P).
  assert (Hpost : normal_known_variance x n var (mkNormal mu s) = mkNormal M (sqrt (1 / P))) by reflexivity.
  rewrite Hpost.
  assert (HsP : 0 < sqrt (1 / P)) by (apply sqrt_lt_R0; apply Rdiv_lt_0_compat; lra).
  pose proof sqrt_2pi_pos as Hpi. pose proof PI_RGT_0 as Hpi0.
  pose proof (proj2 (normal_var_likelihood var data 0 Hv)) as HC.
  set (C := prodR _) in HC.
  set (D := exp (- ((mu ^ 2 / s ^ 2 - P * M ^ 2) / 2))).
  apply (conj_bayes (fun _ => True) _ _ ends_line _ _ _
    (fun t => exp (- (P * (t - M) ^ 2) / 2)) (/ (sqrt (1 / P) * sqrt (2 * PI))) (/ (s * sqrt (2 * PI)) * C * D)).
  - apply Rinv_0_lt_compat. nra.
  - repeat apply Rmult_lt_0_compat; auto. apply Rinv_0_lt_compat. nra. apply exp_pos.
  - intros t _. rewrite (proj1 (normal_var_likelihood var data t Hv)). fold C. fold n. fold x.
    unfold Normal_dist; simpl Normal_mu; simpl Normal_sigma. rewrite norm_pdf by auto. unfold D.
    transitivity (/ (s * sqrt (2 * PI)) * C * (exp (- (t - mu) ^ 2 / (2 * s ^ 2)) * exp (- ((n * t ^ 2 - 2 * x * t) / (2 * var))))). ring.
    rewrite (Rmult_assoc (/ (s * sqrt (2 * PI)) * C)).
    rewrite <- !exp_plus. do 2 f_equal. unfold M.
    assert (Hid : forall P' A, P' <> 0 -> - ((mu ^ 2 / s ^ 2 - P' * (A / P') ^ 2) / 2) + - (P' * (t - A / P') ^ 2) / 2 = - (P' * t ^ 2 - 2 * A * t + mu ^ 2 / s ^ 2) / 2).
    { intros P' A HP'. field. split; auto. lra. }
    rewrite Hid by lra. unfold P. field. lra.
  - intros t _. unfold Normal_dist; simpl Normal_mu; simpl Normal_sigma. rewrite norm_pdf by auto.
    rewrite pow2_sqrt by (left; apply Rdiv_lt_0_compat; lra). do 2 f_equal. field. lra.
  - intros t Ht. exfalso; auto.
  - rewrite Rinv_inv. 
    replace (sqrt (1 / P) * sqrt (2 * PI)) with (sqrt (2 * PI / P)).
    apply is_RInt_gen_gauss_prec; auto.
    rewrite <- sqrt_mult by (try (left; apply Rdiv_lt_0_compat); lra). f_equal. field. lra.
Qed.

(** ** C11 *)
Lemma maxR_ge x l : x <= maxR x l.
Proof. induction l; simpl. lra. eapply Rle_trans. exact IHl. apply Rmax_r. Qed.

Lemma maxR_le_iff x l t : maxR x l <= t <-> x <= t /\ Forall (fun y => y <= t) l.
Proof.
  induction l as [|a l IH]; simpl; split; intros H.
  - split; auto.
  - tauto.
  - assert (a <= t /\ maxR x l <= t) as [H1 H2].
    { split; eapply Rle_trans; try exact H. apply Rmax_l. apply Rmax_r. }
    apply IH in H2. destruct H2. split; auto.
  - destruct H as [H1 H2]. inversion H2; subst. apply Rmax_lub; auto. apply IH; auto.
Qed.

Lemma is_RInt_gen_power_inf p M : 0 < p -> 0 < M ->
  is_RInt_gen (fun t => Rpower t (- p - 1)) (at_point M) Finf (Rpower M (- p) / p).
Proof.
  intros Hp HM. pose proof (ends_right _ _ _ ends_pos M HM) as E.
  replace (Rpower M (- p) / p) with (- / p * 0 - (- / p * Rpower M (- p))) by (field; lra).
  apply (is_RInt_gen_FTC _ _ _ E (fun t => - / p * Rpower t (- p))).
  - intros x [Hx _]. evar_last. apply (is_derive_scal (fun t => Rpower t (- p)) x (- / p)). now apply is_derive_Rpower.
    simpl. field. lra.
  - intros x [Hx _]. now apply continuous_Rpower.
  - intros P HP. unfold filtermap, at_point. exact (locally_singleton _ _ HP).
  - apply filterlim_const_mult. apply FFinf. apply filterlim_Rpower_neg_inf. lra.
Qed.

Lemma uniform_likelihood (data : list R) t : 0 < t -> Forall (fun x => 0 <= x) data ->
  likelihood (fun theta x => pdf (Uniform_dist (mkUniform 0 theta)) x) data t =
  if Rle_dec (maxR 0 data) t then Rpower t (- INR (length data)) else 0.
Proof.
  intros Ht H. induction H as [|x l Hx Hl IH].
  - simpl. destruct (Rle_dec 0 t); try lra. rewrite Ropp_0, Rpower_0. reflexivity.
  - rewrite likelihood_cons, IH. unfold Uniform_dist; simpl Uniform_low; simpl Uniform_high.
    rewrite length_INR_cons. simpl maxR. destruct (Rle_dec x t) as [Hxt|Hxt].
    + rewrite uniform_pdf by lra. destruct (Rle_dec (maxR 0 l) t) as [Hm|Hm].
      * destruct (Rle_dec (Rmax x (maxR 0 l)) t) as [Hm2|Hm2].
        -- replace (- (1 + INR (length l))) with (- (1) + - INR (length l)) by ring.
           rewrite Rpower_plus, (Rpower_Ropp t 1), Rpower_1 by auto. ring.
        -- exfalso. apply Hm2. now apply Rmax_lub.
      * destruct (Rle_dec (Rmax x (maxR 0 l)) t) as [Hm2|Hm2].
        -- exfalso. apply Hm. eapply Rle_trans; [apply Rmax_r|exact Hm2].
        -- ring.
    + rewrite uniform_pdf_out by lra. destruct (Rle_dec (Rmax x (maxR 0 l)) t) as [Hm2|Hm2].
      * exfalso. apply Hxt. eapply Rle_trans; [apply Rmax_l|exact Hm2].
      * ring.
Qed.

Lemma uniform_pareto_bayes (prior : Pareto R) (x : R) (l : list R) :
  0 < Pareto_x_m prior -> 0 < Pareto_alpha prior -> Forall (fun y => 0 <= y) (x :: l) ->
  bayes_posterior Fpos0 Finf (pdf (Pareto_dist prior))
    (likelihood (fun theta y => pdf (Uniform_dist (mkUniform 0 theta)) y) (x :: l))
    (pdf (Pareto_dist (uniform_pareto Rmax (maxR x l) (INR (length (x :: l))) prior))).
Proof.
  destruct prior as [xm a]; simpl Pareto_x_m; simpl Pareto_alpha. intros Hxm Ha H.
  set (n := INR (length (x :: l))). assert (Hn : 0 <= n) by apply pos_INR.
  unfold uniform_pareto, Pareto_dist; simpl Pareto_x_m; simpl Pareto_alpha.
  change (nadd a n) with (a + n).
  set (M := Rmax xm (maxR x l)).
  assert (HxM : xm <= M) by apply Rmax_l. assert (HM : 0 < M) by lra.
  assert (Hmax : forall t, 0 < t -> (maxR 0 (x :: l) <= t <-> maxR x l <= t)).
  { intros t Ht. rewrite !maxR_le_iff. split; intros [H1 H2].
    inversion H2; auto. split. lra. constructor; auto. }
  assert (Hprod : forall t, pdf (S_pareto_scale a xm) t * likelihood (fun theta y => pdf (Uniform_dist (mkUniform 0 theta)) y) (x :: l) t
     = if Rle_dec M t then a * Rpower xm a * Rpower t (- (a + n) - 1) else 0).
  { intros t. destruct (Rle_dec xm t) as [Hx|Hx].
    - rewrite pareto_pdf by auto. rewrite uniform_likelihood by (auto; lra). fold n.
      destruct (Rle_dec (maxR 0 (x :: l)) t) as [H1|H1]; destruct (Rle_dec M t) as [H2|H2].
      + replace (- (a + n) - 1) with (- (a + 1) + - n) by ring. rewrite (Rpower_plus (- (a + 1)) (- n) t), (Rpower_Ropp t (a + 1)). unfold Rdiv. ring.
      + exfalso. apply H2. apply Rmax_lub; auto. apply Hmax; auto. lra.
      + exfalso. apply H1. apply Hmax. lra. eapply Rle_trans; [apply Rmax_r|exact H2].
      + ring.
    - rewrite pareto_pdf_out by lra. destruct (Rle_dec M t); try lra. }
  assert (HrM : 0 < Rpower M (a + n)) by apply Rpower_pos.
  assert (Hrx : 0 < Rpower xm a) by apply Rpower_pos.
  exists (a * Rpower xm a * (Rpower M (- (a + n)) / (a + n))). split; [|split].
  - apply Rmult_lt_0_compat. nra. apply Rdiv_lt_0_compat. apply Rpower_pos. lra.
  - pose proof (ends_left _ _ _ ends_pos M HM) as EL. pose proof (ends_right _ _ _ ends_pos M HM) as ER.
    replace (a * Rpower xm a * (Rpower M (- (a + n)) / (a + n))) with (plus 0 (a * Rpower xm a * (Rpower M (- (a + n)) / (a + n)))) by (unfold plus; simpl; ring).
    apply (is_RInt_gen_Chasles (V:=R_CompleteNormedModule)) with M.
    + apply (is_RInt_gen_ext (V:=R_NormedModule) (fun _ => 0)).
      * apply Filter_prod with (fun x => 0 < x /\ x <= M) (fun x => x = M).
        apply (e_inA _ _ _ EL). reflexivity. intros y z [Hy1 Hy2] -> t Ht. simpl in Ht.
        rewrite Rmax_right in Ht by auto. rewrite Hprod. destruct (Rle_dec M t); lra.
      * replace 0 with (0 * 0) at 4 by ring.
        replace 0 with (0 - 0) at 2 by ring.
        apply (is_RInt_gen_FTC _ _ _ EL (fun _ => 0)).
        -- intros y _. apply (is_derive_const (V:=R_NormedModule) 0).
        -- intros y _. apply continuous_const.
        -- apply filterlim_const.
        -- apply filterlim_const.
    + apply (is_RInt_gen_ext (V:=R_NormedModule) (fun t => a * Rpower xm a * Rpower t (- (a + n) - 1))).
      * apply Filter_prod with (fun x => x = M) (fun x => M < x).
        reflexivity. exists M; auto. intros y z -> Hz t Ht. simpl in Ht.
        rewrite Rmin_left in Ht by lra. rewrite Hprod. destruct (Rle_dec M t); lra.
      * apply is_RInt_gen_mult_l. apply at_point_filter. apply FFinf. apply is_RInt_gen_power_inf; lra.
  - intros t. rewrite Hprod. change (Rmax xm (maxR x l)) with M. destruct (Rle_dec M t) as [Ht|Ht].
    + rewrite pareto_pdf by auto. rewrite Rpower_Ropp.
      replace (- (a + n) - 1) with (- (a + n + 1)) by ring. rewrite Rpower_Ropp.
      pose proof (Rpower_pos t (a + n + 1)). field. repeat split; lra.
    + rewrite pareto_pdf_out by lra. unfold Rdiv; ring.
Qed.
