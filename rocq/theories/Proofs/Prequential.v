(** The chain rule of probability from Bayes' rule and the predictive of one observation. *)

From Coq Require Import Reals Lra Lia ZArith Permutation.
From Coquelicot Require Import Coquelicot.
From Verif Require Import Model.Num Model.Py Model.NdArray Model.DirichletModel Model.Dists Model.ScipyDist Model.Models.
From Verif Require Import Spec.Special Spec.Densities Spec.Bayes Spec.Joint Spec.Normalised Spec.Simplex Spec.Containers Spec.Prequential.
From Verif Require Import Analysis.Improper Analysis.GammaFacts Proofs.Conj Proofs.Predictive Proofs.Joint Proofs.Sharp Proofs.Normalised Proofs.Construct Proofs.Pdfs Proofs.Dirichlet.
From Coq Require Import List.
Import ListNotations.
Open Scope R_scope.

Lemma prodR_perm (l l' : list R) : Permutation l l' -> prodR l = prodR l'.
Proof. induction 1; simpl; try congruence. ring. Qed.

Lemma likelihood_perm {P O} (lik : P -> O -> R) l l' t : Permutation l l' -> likelihood lik l t = likelihood lik l' t.
Proof. intros H. apply prodR_perm, Permutation_map, H. Qed.

Section Chain.
Context {P D O : Type} (I : (P -> R) -> R -> Prop) (dens : D -> P -> R) (lik : P -> O -> R)
  (update : D -> O -> res D) (predict : D -> O -> res R) (dom : P -> Prop) (ok : D -> Prop) (obs : O -> Prop).
Context (uniq : forall f l l', I f l -> I f l' -> l = l')
  (scal : forall f c l, I f l -> I (fun t => c * f t) (c * l))
  (ext : forall f g l, (forall t, dom t -> f t = g t) -> I f l -> I g l).
Context (total : forall d, ok d -> I (dens d) 1)
  (step : forall d o, ok d -> obs o -> exists d' p ev, update d o = Ok d' /\ ok d' /\ predict d o = Ok p /\
     0 < ev /\ I (fun t => dens d t * lik t o) ev /\ (forall t, dom t -> dens d' t = dens d t * lik t o / ev) /\
     I (fun t => lik t o * dens d t) p).

Lemma chain_exists d data : ok d -> Forall obs data ->
  exists e c, one_by_one update predict d data = Ok (e, c) /\ ok e /\ 0 < c /\
    I (fun t => likelihood lik data t * dens d t) c /\
    (forall t, dom t -> dens e t = dens d t * likelihood lik data t / c).
Proof.
  intros Hd Hl. revert d Hd. induction Hl as [|o l Ho Hl IH]; intros d Hd.
  - exists d, 1. split; [reflexivity|]. split; [exact Hd|]. split; [lra|]. split.
    + apply (ext (dens d)); [|now apply total]. intros t Ht. unfold likelihood. simpl. ring.
    + intros t Ht. unfold likelihood. simpl. field.
  - destruct (step d o Hd Ho) as (d' & p & ev & U & Hd' & Pr & Hev & Iev & Hp & Ip).
    assert (p = ev) as ->.
    { apply (uniq (fun t => dens d t * lik t o)); [|exact Iev]. apply (ext (fun t => lik t o * dens d t)); [|exact Ip]. intros t Ht. ring. }
    destruct (IH d' Hd') as (e & c & E & He & Hc & Ic & Hpost).
    exists e, (ev * c). simpl. rewrite Pr, U. simpl. rewrite E. simpl. split; [reflexivity|]. split; [exact He|].
    split; [now apply Rmult_lt_0_compat|]. split.
    + apply (ext (fun t => ev * (likelihood lik l t * dens d' t))); [|now apply scal].
      intros t Ht. rewrite Hp by exact Ht. change (likelihood lik (o :: l) t) with (lik t o * likelihood lik l t). field. lra.
    + intros t Ht. rewrite Hpost, Hp by exact Ht. change (likelihood lik (o :: l) t) with (lik t o * likelihood lik l t). field. lra.
Qed.

Lemma prequential_intro : prequential I dens lik update predict dom ok obs.
Proof.
  intros d data Hd Hl. destruct (chain_exists d data Hd Hl) as (e & c & E & He & Hc & Ic & Hp).
  exists e, c. repeat (split; [assumption|]). intros data' HP.
  destruct (chain_exists d data' Hd (Permutation_Forall HP Hl)) as (e' & c' & E' & _ & _ & Ic' & _).
  exists e'. rewrite E'. do 2 f_equal. apply (uniq _ _ _ Ic'). apply (ext _ _ _ (fun t _ => f_equal (fun z => z * dens d t) (likelihood_perm lik data data' t HP)) Ic).
Qed.
End Chain.

(** ** One parameter *)
Section One.
Context {D O : Type} (Fa Fb : (R -> Prop) -> Prop) {FA : ProperFilter' Fa} {FB : ProperFilter' Fb}.
Context (dens : D -> R -> R) (lik : R -> O -> R)
  (update : D -> O -> D) (predict : D -> O -> res R) (ok : D -> Prop) (obs : O -> Prop).

Lemma over1_uniq f l l' : over1 Fa Fb f l -> over1 Fa Fb f l' -> l = l'.
Proof. unfold over1. intros H H'. apply (is_RInt_gen_unique (V := R_CompleteNormedModule)) in H, H'. congruence. Qed.

Lemma over1_ext f g l : (forall t, f t = g t) -> over1 Fa Fb f l -> over1 Fa Fb g l.
Proof. unfold over1. intros E. apply is_RInt_gen_ext. apply filter_forall. intros [a b] x _. apply E. Qed.

Lemma prequential1 :
  (forall d, ok d -> over1 Fa Fb (dens d) 1) ->
  (forall d o, ok d -> obs o -> ok (update d o)) ->
  (forall d o, ok d -> obs o -> bayes_posterior Fa Fb (dens d) (fun t => lik t o) (dens (update d o))) ->
  (forall d o, ok d -> obs o -> exists p, predict d o = Ok p /\ marginal Fa Fb (dens d) (fun t => lik t o) p) ->
  prequential (over1 Fa Fb) dens lik (fun d o => Ok (update d o)) predict anywhere ok obs.
Proof.
  intros T C B M. apply prequential_intro.
  - exact over1_uniq.
  - intros f c l H. exact (is_RInt_gen_scal f c l H).
  - intros f g l E. apply over1_ext. intros t. apply E. exact Logic.I.
  - exact T.
  - intros d o Hd Ho. destruct (B d o Hd Ho) as (ev & Hev & Iev & Hp). destruct (M d o Hd Ho) as (p & Ep & Ip).
    exists (update d o), p, ev. repeat split; auto.
Qed.
End One.

Lemma bayes_ext Fa Fb prior lik lik' post post' {FA : Filter Fa} {FB : Filter Fb} :
  (forall t, lik t = lik' t) -> post = post' -> bayes_posterior Fa Fb prior lik post -> bayes_posterior Fa Fb prior lik' post'.
Proof.
  intros E <- (ev & H & Hi & Hp). exists ev. split; [exact H|]. split.
  - apply (is_RInt_gen_ext (fun t => prior t * lik t)); [|exact Hi]. apply filter_forall. intros [a b] x _. now rewrite E.
  - intros t. now rewrite <- E.
Qed.

Ltac single H := eapply bayes_ext; [typeclasses eauto|typeclasses eauto| | |exact H]; [intros t; unfold likelihood; simpl; ring|].

Lemma binomial_prequential :
  prequential (over1 Fpos0 Fone) (fun d => pdf (Beta_dist d))
    (fun p (o : nat * nat) => pmf (Binomial_dist (mkBinomial (INR (fst o)) p)) (Z.of_nat (snd o)))
    (fun d o => Ok (binomial_beta (INR (fst o)) (INR (snd o)) d))
    (fun d o => Ok (pmf (BetaBinomial_dist (binomial_beta_predictive (INR (fst o)) d)) (Z.of_nat (snd o))))
    anywhere (fun d => 0 < Beta_alpha d /\ 0 < Beta_beta d) (fun o => (snd o <= fst o)%nat).
Proof.
  apply prequential1; try typeclasses eauto.
  - intros d (Ha & Hb). exact (proj2 (proj2 (Beta_density d Ha Hb))).
  - intros d [n k] (Ha & Hb) Ho. simpl in *. pose proof (pos_INR k). apply le_INR in Ho. lra.
  - intros d [n k] (Ha & Hb) Ho. pose proof (binomial_beta_bayes d [(n, k)] Ha Hb ltac:(repeat constructor; exact Ho)) as H.
    single H. simpl. rewrite !Nat.add_0_r. reflexivity.
  - intros d [n k] (Ha & Hb) Ho. eexists. split; [reflexivity|]. now apply binomial_beta_predictive_marginal.
Qed.

Lemma bernoulli_prequential :
  prequential (over1 Fpos0 Fone) (fun d => pdf (Beta_dist d))
    (fun p (x : nat) => if Nat.eqb x 1 then p else 1 - p)
    (fun d x => Ok (bernoulli_beta (INR x) d))
    (fun d x => Ok (pmf (BetaBinomial_dist (bernoulli_beta_predictive d)) (Z.of_nat x)))
    anywhere (fun d => 0 < Beta_alpha d /\ 0 < Beta_beta d) (fun x => (x <= 1)%nat).
Proof.
  apply prequential1; try typeclasses eauto.
  - intros d (Ha & Hb). exact (proj2 (proj2 (Beta_density d Ha Hb))).
  - intros d x (Ha & Hb) Ho. simpl in *. pose proof (pos_INR x). apply le_INR in Ho. simpl in Ho. lra.
  - intros d x (Ha & Hb) Ho. exact (proj2 (bernoulli_beta_bayes x d Ha Hb Ho)).
  - intros d x (Ha & Hb) Ho. eexists. split; [reflexivity|].
    apply (over1_ext Fpos0 Fone (fun t => pmf (Binomial_dist (mkBinomial (INR 1) t)) (Z.of_nat x) * pdf (Beta_dist d) t)).
    + intros t. f_equal. unfold Binomial_dist. cbn [Binomial_n Binomial_p]. rewrite binom_pmf by exact Ho.
      unfold choose. destruct x as [|[|x]]; [| |lia]; simpl; field.
    + exact (binomial_beta_predictive_marginal d 1 x Ha Hb Ho).
Qed.

Lemma negative_binomial_prequential (major minor micro : nat) (rest : list nat) (r : R) :
  0 < r -> (1 < major \/ (major = 1 /\ 12 <= minor))%nat ->
  prequential (over1 Fpos0 Fone) (fun d => pdf (Beta_dist d))
    (fun p (x : nat) => pmf (NegativeBinomial_dist (mkNegativeBinomial r p)) (Z.of_nat x))
    (fun d x => Ok (negative_binomial_beta r 1 (INR x) d))
    (fun d x => let* D := BetaNegativeBinomial_dist (major :: minor :: micro :: rest) (negative_binomial_beta_predictive r d) in Ok (pmf D (Z.of_nat x)))
    anywhere (fun d => 0 < Beta_alpha d /\ 0 < Beta_beta d) (fun _ => True).
Proof.
  intros Hr Hrel. apply prequential1; try typeclasses eauto.
  - intros d (Ha & Hb). exact (proj2 (proj2 (Beta_density d Ha Hb))).
  - intros d x (Ha & Hb) _. simpl. pose proof (pos_INR x). lra.
  - intros d x (Ha & Hb) _. pose proof (negative_binomial_beta_bayes d r [x] Ha Hb Hr) as H. single H. simpl. rewrite Nat.add_0_r. reflexivity.
  - intros d x (Ha & Hb) _.
    destruct (proj2 (betanbinom_dist_from R _ major minor micro rest (negative_binomial_beta_predictive r d)) Hrel) as (f & E).
    exists (pmf f (Z.of_nat x)). rewrite E. split; [reflexivity|].
    exact (negative_binomial_beta_predictive_marginal d r x _ f Ha Hb Hr E).
Qed.

Lemma poisson_prequential :
  prequential (over1 Fpos0 Finf) (fun d => pdf (Gamma_dist d))
    (fun lam (x : nat) => pmf (Poisson_dist (mkPoisson lam)) (Z.of_nat x))
    (fun d x => Ok (poisson_gamma (INR x) 1 d))
    (fun d x => Ok (pmf (NegativeBinomial_dist (poisson_gamma_predictive d 1)) (Z.of_nat x)))
    anywhere (fun d => 0 < Gamma_alpha d /\ 0 < Gamma_beta d) (fun _ => True).
Proof.
  apply prequential1; try typeclasses eauto.
  - intros d (Ha & Hb). exact (proj2 (proj2 (Gamma_density d Ha Hb))).
  - intros d x (Ha & Hb) _. simpl. pose proof (pos_INR x). lra.
  - intros d x (Ha & Hb) _. pose proof (poisson_gamma_bayes d [x] Ha Hb) as H. single H. simpl. rewrite Nat.add_0_r. reflexivity.
  - intros d x (Ha & Hb) _. eexists. split; [reflexivity|]. now apply poisson_gamma_predictive_marginal.
Qed.

Lemma gamma_known_shape_prequential (alpha : R) : 0 < alpha ->
  prequential (over1 Fpos0 Finf) (fun d => pdf (Gamma_dist d))
    (fun rate x => pdf (Gamma_dist (mkGamma alpha rate)) x)
    (fun d x => Ok (gamma_known_shape x 1 alpha d))
    (fun d x => Ok (pdf (CompoundGamma_dist (gamma_known_shape_predictive d alpha)) x))
    anywhere (fun d => 0 < Gamma_alpha d /\ 0 < Gamma_beta d) (fun x => 0 < x).
Proof.
  intros Hal. apply prequential1; try typeclasses eauto.
  - intros d (Ha & Hb). exact (proj2 (proj2 (Gamma_density d Ha Hb))).
  - intros d x (Ha & Hb) Hx. simpl. lra.
  - intros d x (Ha & Hb) Hx. pose proof (gamma_known_shape_bayes d alpha [x] Ha Hb Hal ltac:(repeat constructor; exact Hx)) as H. single H.
    simpl. rewrite Rplus_0_r. reflexivity.
  - intros d x (Ha & Hb) Hx. eexists. split; [reflexivity|]. now apply gamma_known_shape_predictive_marginal.
Qed.

Lemma normal_sigma_pos x n var (d : Normal R) : 0 < var -> 0 <= n -> 0 < Normal_sigma d -> 0 < Normal_sigma (normal_known_variance x n var d).
Proof.
  intros Hv Hn Hs. unfold normal_known_variance. cbn. apply sqrt_lt_R0.
  set (s2 := Normal_sigma d * (Normal_sigma d * 1)). assert (0 < s2) by (unfold s2; nra).
  assert (0 < 1 / s2) by (apply Rdiv_lt_0_compat; lra).
  assert (0 <= n / var) by (apply Rmult_le_pos; [lra|left; now apply Rinv_0_lt_compat]).
  apply Rdiv_lt_0_compat; lra.
Qed.

Lemma normal_known_variance_prequential (var : R) : 0 < var ->
  prequential (over1 Fminf Finf) (fun d => pdf (Normal_dist d))
    (fun m x => pdf (Normal_dist (mkNormal m (sqrt var))) x)
    (fun d x => Ok (normal_known_variance x 1 var d))
    (fun d x => Ok (pdf (Normal_dist (normal_known_variance_predictive var d)) x))
    anywhere (fun d => 0 < Normal_sigma d) (fun _ => True).
Proof.
  intros Hv. apply prequential1; try typeclasses eauto.
  - intros d Hs. exact (proj2 (proj2 (Normal_density d Hs))).
  - intros d x Hs _. apply normal_sigma_pos; auto; lra.
  - intros d x Hs _. pose proof (normal_known_variance_bayes d var [x] Hs Hv) as H. single H.
    simpl. rewrite Rplus_0_r. reflexivity.
  - intros d x Hs _. eexists. split; [reflexivity|]. now apply normal_known_variance_predictive_marginal.
Qed.

Lemma normal_known_precision_prequential (precision : R) : 0 < precision ->
  prequential (over1 Fminf Finf) (fun d => pdf (Normal_dist d))
    (fun m x => pdf (Normal_dist (mkNormal m (/ sqrt precision))) x)
    (fun d x => Ok (normal_known_precision x 1 precision d))
    (fun d x => Ok (pdf (Normal_dist (normal_known_precision_predictive precision d)) x))
    anywhere (fun d => 0 < Normal_sigma d) (fun _ => True).
Proof.
  intros Hv. apply prequential1; try typeclasses eauto.
  - intros d Hs. exact (proj2 (proj2 (Normal_density d Hs))).
  - intros d x Hs _. apply normal_sigma_pos; auto; [apply Rdiv_lt_0_compat|]; simpl; lra.
  - intros d x Hs _. destruct (normal_known_precision_bayes d precision [x] Hs Hv) as (_ & H). single H.
    simpl. rewrite Rplus_0_r. reflexivity.
  - intros d x Hs _. eexists. split; [reflexivity|]. now apply normal_known_precision_predictive_marginal.
Qed.

Lemma normal_known_mean_prequential (mu : R) :
  prequential (over1 Fpos0 Finf) (fun d => pdf (variance_dist d))
    (fun v x => pdf (Normal_dist (mkNormal mu (sqrt v))) x)
    (fun d x => Ok (normal_known_mean x (x ^ 2) 1 mu d))
    (fun d x => Ok (pdf (StudentT_dist (normal_known_mean_predictive mu d)) x))
    anywhere variance_ok (fun _ => True).
Proof.
  apply prequential1; try typeclasses eauto.
  - intros [d|d] (Ha & Hb). exact (proj2 (proj2 (InverseGamma_density d Ha Hb))).
    exact (proj2 (proj2 (ScaledInverseChiSquared_density d Ha Hb))).
  - intros [d|d] x (Ha & Hb) _; unfold normal_known_mean, normal_known_mean_inverse_gamma_prior, variance_ok,
      ScaledInverseChiSquared_from_inverse_gamma, ScaledInverseChiSquared_to_inverse_gamma; simpl in *; unfold nsq; simpl.
    + split; [lra|]. pose proof (pow2_ge_0 (x - mu)). nra.
    + split; [lra|]. apply Rdiv_lt_0_compat; [|lra]. pose proof (pow2_ge_0 (x - mu)). nra.
  - intros d x Hs _. pose proof (normal_known_mean_bayes d mu [x] Hs) as H. single H.
    simpl sumR. simpl length. simpl INR. unfold sumR. simpl map. cbn [fold_right]. rewrite !Rplus_0_r. reflexivity.
  - intros d x Hs _. eexists. split; [reflexivity|]. now apply normal_known_mean_predictive_marginal.
Qed.

(** ** Two parameters *)
Definition plane := over2 Fminf Finf Fpos0 Finf (fun v => 0 < v).

Lemma over2_uniq f l l' : plane f l -> plane f l' -> l = l'.
Proof.
  intros (i & Hi & Ii) (i' & Hi' & Ii'). apply (over1_uniq Fpos0 Finf i); [exact Ii|].
  apply (is_RInt_gen_ext_on _ _ _ ends_pos i'); [|exact Ii'].
  intros v Hv. exact (over1_uniq Fminf Finf _ _ _ (Hi' v Hv) (Hi v Hv)).
Qed.

Lemma over2_scal f c l : plane f l -> plane (fun t => c * f t) (c * l).
Proof.
  intros (i & Hi & Ii). exists (fun v => c * i v). split.
  - intros v Hv. exact (is_RInt_gen_scal _ c _ (Hi v Hv)).
  - exact (is_RInt_gen_scal _ c _ Ii).
Qed.

Lemma over2_ext f g l : (forall t, f t = g t) -> plane f l -> plane g l.
Proof.
  intros E (i & Hi & Ii). exists i. split; [|exact Ii].
  intros v Hv. apply (over1_ext Fminf Finf (fun m => f (m, v))); [|exact (Hi v Hv)]. intros t. apply E.
Qed.

Definition joint {M} (d : NormalPrior R M) (p : R * R) : R := normal_prior_pdf d (fst p) (snd p).

Lemma normal_prior_total {M} (d : NormalPrior R M) : normal_prior_ok d -> plane (joint d) 1.
Proof.
  destruct d as [d|d]; intros H.
  - destruct H as (_ & (nu & E & Hnu) & Ha & Hb). exists (pdf (S_invgamma_scale (NormalInverseGamma_alpha d) (NormalInverseGamma_beta d))). split.
    + intros v Hv. unfold joint, normal_prior_pdf, nig_pdf. cbn [fst snd]. rewrite E.
      set (k := pdf (S_invgamma_scale _ _) v).
      pose proof (is_RInt_gen_mult_l Fminf Finf _ k _ (proj2 (proj2 (Normal_density (mkNormal (NormalInverseGamma_mu d) (sqrt (v / nu))) (sqrt_lt_R0 _ (Rdiv_lt_0_compat _ _ Hv Hnu)))))) as I.
      rewrite Rmult_1_r in I. exact I.
    + exact (proj2 (proj2 (invgamma_density _ _ Ha Hb))).
  - destruct H as (Hl & Ha & Hb). exists (pdf (S_gamma_scale (NormalGamma_alpha d) (/ NormalGamma_beta d))). split.
    + intros v Hv. unfold joint, normal_prior_pdf, ng_pdf. cbn [fst snd].
      set (k := pdf (S_gamma_scale _ _) v).
      pose proof (is_RInt_gen_mult_l Fminf Finf _ k _ (proj2 (proj2 (Normal_density (mkNormal (NormalGamma_mu d) (/ sqrt (NormalGamma_lam d * v)))
        (Rinv_0_lt_compat _ (sqrt_lt_R0 _ (Rmult_lt_0_compat _ _ Hl Hv))))))) as I.
      rewrite Rmult_1_r in I. exact I.
    + exact (proj2 (proj2 (gamma_density _ _ Ha (Rinv_0_lt_compat _ Hb)))).
Qed.

Lemma normal_prequential {M} (sd : R -> R) :
  prequential plane (fun d : NormalPrior R M => joint d)
    (fun p x => pdf (Normal_dist (mkNormal (fst p) (sd (snd p)))) x)
    (fun d x => normal x (x ^ 2) 1 d)
    (fun d x => let* t := normal_predictive d in Ok (pdf (StudentT_dist t) x))
    anywhere (fun d => normal_prior_ok d /\ forall v, normal_obs_sd d v = sd v) (fun _ => True).
Proof.
  apply prequential_intro.
  - exact over2_uniq.
  - exact over2_scal.
  - intros f g l E. apply over2_ext. intros t. apply E. exact Logic.I.
  - intros d (H & _). now apply normal_prior_total.
  - intros d x (H & Hsd) _. destruct (normal_bayes d [x]) as (d' & E & H' & (i & ev & Hev & Hi & Ii & Hp) & Esd); [discriminate|exact H|].
    destruct (normal_predictive_marginal d x H) as (t & Et & j & Hj & Ij).
    exists d', (pdf (StudentT_dist t) x), ev. split.
    { rewrite <- E. unfold sumR. cbn [map]. cbn [fold_right]. rewrite !Rplus_0_r. reflexivity. }
    split; [split; [exact H'|]; intros v; now rewrite Esd|]. split; [now rewrite Et|]. split; [exact Hev|]. split; [|split].
    + exists i. split; [|exact Ii]. intros v Hv. eapply (over1_ext Fminf Finf); [|exact (Hi v Hv)]. intros m.
      unfold joint, likelihood. cbn [map]. unfold prodR. cbn [fold_right fst snd]. rewrite Hsd. ring.
    + intros [m v] _. unfold joint. cbn [fst snd]. rewrite Hp. unfold likelihood. cbn [map]. unfold prodR. cbn [fold_right fst snd]. rewrite Hsd. field. lra.
    + exists j. split; [|exact Ij]. intros v Hv. eapply (over1_ext Fminf Finf); [|exact (Hj v Hv)]. intros m.
      unfold joint. cbn [fst snd]. rewrite Hsd. ring.
Qed.

(** ** The simplex *)
Lemma simplex_uniq n : forall s f l l', 0 < s -> is_simplex_int n s f l -> is_simplex_int n s f l' -> l = l'.
Proof.
  induction n as [|n IH]; intros s f l l' Hs; simpl.
  - congruence.
  - intros (g & Hg & Ig) (g' & Hg' & Ig'). apply (is_RInt_gen_unique_on _ _ _ (ends_open 0 s Hs) g); [exact Ig|].
    apply (is_RInt_gen_ext_on _ _ _ (ends_open 0 s Hs) g'); [|exact Ig'].
    intros x Hx. apply (IH (s - x) (fun p => f (x :: p))); [lra| |]; auto.
Qed.

Lemma alphas_len n a : length (alphas n (OVal (CArr a))) = S n.
Proof. unfold alphas. now rewrite map_length, seq_length. Qed.

Lemma alphas_nth n a i d : (i < S n)%nat -> nth i (alphas n (OVal (CArr a))) d = nd_entry a [i].
Proof.
  intros Hi. rewrite (nth_indep _ d (nd_entry a [0%nat])) by now rewrite alphas_len.
  unfold alphas. rewrite (map_nth (fun i0 => nd_entry a [i0])). now rewrite seq_nth.
Qed.

Lemma alphas_holds n a : nd_shape a = [S n] -> holds (CArr a) (alphas n (OVal (CArr a))).
Proof.
  intros Sh. split; [now rewrite alphas_len|]. intros i d Hi. rewrite alphas_len in Hi. now rewrite alphas_nth.
Qed.

Lemma holds_alphas n a alpha : holds (CArr a) alpha -> length alpha = S n -> alphas n (OVal (CArr a)) = alpha.
Proof.
  intros (Sh & H) L. apply (nth_ext _ _ 0 0); [now rewrite alphas_len|].
  intros i Hi. rewrite alphas_len in Hi. rewrite alphas_nth by exact Hi. apply H. lia.
Qed.

Lemma multinomial_prequential (n : nat) :
  prequential (is_simplex_int n 1) (fun d => dirichlet_pdf (alphas n (Dirichlet_alpha d))) multinomial_pmf
    (fun d x => with_alpha (multinomial_dirichlet (CArr (as_array (map INR x)))) d)
    (fun d x => let P := multinomial_dirichlet_predictive (Some (INR (sumN x))) d in
       Ok (dirichlet_multinomial_pmf (alphas n (DirichletMultinomial_alpha P)) (Rnat (DirichletMultinomial_n P)) x))
    (on_simplex n 1) (dirichlet_ok n) (fun x => length x = S n).
Proof.
  apply prequential_intro.
  - intros f l l'. apply simplex_uniq. lra.
  - intros f c l. apply simplex_scal.
  - intros f g l E. apply simplex_ext; [lra|exact E].
  - intros d (a & E & Sh & F). apply dirichlet_total; [|exact F]. rewrite E. apply alphas_len.
  - intros [o] x (a & E & Sh & F) Hx. cbn [Dirichlet_alpha] in E, F. subst o.
    assert (L : length (alphas n (OVal (CArr a))) = S n) by apply alphas_len.
    assert (T : total n [x] = x).
    { unfold total. transitivity (map (fun k => nth k x 0%nat) (seq 0 (length x))); [rewrite Hx|apply map_seq_nth].
      apply map_ext. intros k. simpl. lia. }
    destruct (multinomial_bayes n (CArr a) (CArr (as_array (map INR x))) _ [x] L F (Forall_cons _ Hx (Forall_nil _)) (alphas_holds n a Sh))
      as (out & alpha' & Eo & Ho & L' & F' & (ev & Hev & Iev & Hp)).
    { rewrite T. split; [simpl; reflexivity|]. intros i d Hi. simpl. apply nth_indep. exact Hi. }
    { intros C. exact C. }
    pose proof (params_elementwise (CArr a) (CArr (as_array (map INR x))) (alphas n (OVal (CArr a))) (map INR x)
      (alphas_holds n a Sh) (conj eq_refl (fun i d Hi => nth_indep _ _ _ Hi)) ltac:(now rewrite L, map_length) (fun C => C)) as (out2 & E2 & _ & A2).
    assert (exists a', out = CArr a') as (a' & ->).
    { destruct (proj2 A2 (or_introl (ex_intro _ a eq_refl))) as (a' & ->). exists a'.
      unfold multinomial_dirichlet in Eo. rewrite E2 in Eo. simpl in Eo. congruence. }
    pose proof (holds_alphas n a' alpha' Ho L') as Ea. cbn zeta.
    exists (mkDirichlet (OVal (CArr a'))). eexists _, ev. split; [exact Eo|]. split.
    { exists a'. cbn [Dirichlet_alpha]. rewrite Ea. split; [reflexivity|]. split; [|exact F']. destruct Ho as (Ho & _). now rewrite Ho, L'. }
    split; [reflexivity|]. split; [exact Hev|]. cbn [Dirichlet_alpha]. rewrite Ea. split; [|split].
    + revert Iev. apply simplex_ext; [lra|]. intros p _. unfold likelihood. simpl. ring.
    + intros p Hp'. rewrite Hp by exact Hp'. unfold likelihood. simpl. field. lra.
    + cbn [DirichletMultinomial_alpha DirichletMultinomial_n multinomial_dirichlet_predictive categorical_dirichlet_predictive Dirichlet_alpha].
      rewrite Rnat_INR. now apply dm_marginal.
Qed.

Lemma sum_indicator k : forall l m, (m <= k < m + l)%nat -> sumN (map (fun j => if Nat.eq_dec k j then 1%nat else 0%nat) (seq m l)) = 1%nat.
Proof.
  assert (Z : forall l m, (k < m)%nat -> sumN (map (fun j => if Nat.eq_dec k j then 1%nat else 0%nat) (seq m l)) = 0%nat).
  { induction l; intros m H; simpl; auto. destruct (Nat.eq_dec k m); [lia|]. change (fold_right Nat.add 0%nat) with sumN. rewrite IHl; lia. }
  induction l; intros m H; [lia|]. simpl. change (fold_right Nat.add 0%nat) with sumN. destruct (Nat.eq_dec k m).
  subst. rewrite Z; lia. rewrite IHl; lia.
Qed.

Lemma counts_one n k : counts n [k] = map (fun j => if Nat.eq_dec k j then 1%nat else 0%nat) (seq 0 (S n)).
Proof. unfold counts. apply map_ext. intros j. simpl. destruct (Nat.eq_dec k j); reflexivity. Qed.

Lemma coef_indicator k : forall l m, prodR (map (fun k => INR (fact k)) (map (fun j => if Nat.eq_dec k j then 1%nat else 0%nat) (seq m l))) = 1.
Proof. induction l; intros m; simpl; [reflexivity|]. change (fold_right Rmult 1) with prodR. rewrite IHl. destruct (Nat.eq_dec k m); simpl; ring. Qed.

Lemma categorical_prequential (n : nat) :
  prequential (is_simplex_int n 1) (fun d => dirichlet_pdf (alphas n (Dirichlet_alpha d))) categorical_pmf
    (fun d k => with_alpha (categorical_dirichlet (CArr (as_array (map INR (counts n [k]))))) d)
    (fun d k => let P := categorical_dirichlet_predictive None d in
       Ok (dirichlet_multinomial_pmf (alphas n (DirichletMultinomial_alpha P)) (Rnat (DirichletMultinomial_n P)) (counts n [k])))
    (on_simplex n 1) (dirichlet_ok n) (fun k => (k <= n)%nat).
Proof.
  apply prequential_intro.
  - intros f l l'. apply simplex_uniq. lra.
  - intros f c l. apply simplex_scal.
  - intros f g l E. apply simplex_ext; [lra|exact E].
  - intros d (a & E & Sh & F). apply dirichlet_total; [|exact F]. rewrite E. apply alphas_len.
  - intros [o] k (a & E & Sh & F) Hk. cbn [Dirichlet_alpha] in E, F. subst o.
    assert (L : length (alphas n (OVal (CArr a))) = S n) by apply alphas_len.
    assert (Lc : length (counts n [k]) = S n) by (unfold counts; now rewrite map_length, seq_length).
    destruct (categorical_bayes n (CArr a) (CArr (as_array (map INR (counts n [k])))) _ [k] L F (Forall_cons _ Hk (Forall_nil _)) (alphas_holds n a Sh))
      as (out & alpha' & Eo & Ho & L' & F' & (ev & Hev & Iev & Hp)).
    { split; [reflexivity|]. intros i d Hi. apply nth_indep. exact Hi. }
    { intros C. exact C. }
    pose proof (params_elementwise (CArr a) (CArr (as_array (map INR (counts n [k])))) (alphas n (OVal (CArr a))) (map INR (counts n [k]))
      (alphas_holds n a Sh) (conj eq_refl (fun i d Hi => nth_indep _ _ _ Hi)) ltac:(now rewrite L, map_length) (fun C => C)) as (out2 & E2 & _ & A2).
    assert (exists a', out = CArr a') as (a' & ->).
    { destruct (proj2 A2 (or_introl (ex_intro _ a eq_refl))) as (a' & ->). exists a'.
      unfold categorical_dirichlet in Eo. rewrite E2 in Eo. simpl in Eo. congruence. }
    pose proof (holds_alphas n a' alpha' Ho L') as Ea. cbn zeta.
    exists (mkDirichlet (OVal (CArr a'))). eexists _, ev. split; [exact Eo|]. split.
    { exists a'. cbn [Dirichlet_alpha]. rewrite Ea. split; [reflexivity|]. split; [|exact F']. destruct Ho as (Ho & _). now rewrite Ho, L'. }
    split; [reflexivity|]. split; [exact Hev|]. cbn [Dirichlet_alpha]. rewrite Ea. split; [|split].
    + revert Iev. apply simplex_ext; [lra|]. intros p _. unfold likelihood. simpl. ring.
    + intros p Hp'. rewrite Hp by exact Hp'. unfold likelihood. simpl. field. lra.
    + cbn [DirichletMultinomial_alpha DirichletMultinomial_n categorical_dirichlet_predictive Dirichlet_alpha].
      change (nlit 1 : R) with (INR 1). rewrite Rnat_INR.
      assert (S1 : sumN (counts n [k]) = 1%nat) by (rewrite counts_one; apply sum_indicator; lia).
      pose proof (dm_marginal n (alphas n (OVal (CArr a))) (counts n [k]) L Lc F) as D. rewrite S1 in D.
      revert D. apply simplex_ext; [lra|]. intros p (Lp & _). f_equal. unfold multinomial_pmf, multinomial_coef. rewrite S1.
      pose proof (lik_categorical n [k] p Lp (Forall_cons _ Hk (Forall_nil _))) as Lk. unfold cpow in Lk. rewrite <- Lk.
      rewrite counts_one, coef_indicator. unfold likelihood. simpl. field.
Qed.
