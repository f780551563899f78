(** Averages of posteriors, from the chain rule for one observation. *)

From Coq Require Import Reals Lra Lia ZArith.
From Coquelicot Require Import Coquelicot.
From Verif Require Import Model.Num Model.Py Model.NdArray Model.DirichletModel Model.Dists Model.ScipyDist Model.Models.
From Verif Require Import Spec.Special Spec.Densities Spec.Bayes Spec.Joint Spec.Moments Spec.Normalised Spec.Simplex Spec.Containers
  Spec.Prequential Spec.Calibration.
From Verif Require Import Analysis.Improper Analysis.GammaBeta Analysis.GammaFacts Proofs.Conj Proofs.Predictive Proofs.Joint Proofs.Sharp
  Proofs.Normalised Proofs.Construct Proofs.Pdfs Proofs.Dirichlet Proofs.Moments Proofs.Prequential.
From Coq Require Import List.
Import ListNotations.
Open Scope R_scope.

(** ** one observation of a chain *)
Section Generic.
Context {P D O O' : Type} {I : (P -> R) -> R -> Prop} {dens : D -> P -> R} {lik : P -> O -> R}
  {update : D -> O -> res D} {predict : D -> O -> res R} {dom : P -> Prop} {ok : D -> Prop} {obs : O -> Prop}.
Context (H : prequential I dens lik update predict dom ok obs).

Lemma prequential_single d o : ok d -> obs o -> exists e c,
  update d o = Ok e /\ predict d o = Ok c /\ 0 < c /\ I (fun t => likelihood lik [o] t * dens d t) c /\
  forall t, dom t -> dens e t = dens d t * lik t o / c.
Proof.
  intros Hd Ho. destruct (H d [o] Hd ltac:(repeat constructor; exact Ho)) as (e & c & E & _ & Hc & Hi & Hp & _).
  simpl in E. destruct (predict d o) as [p|] eqn:Ep; [|discriminate]. simpl in E.
  destruct (update d o) as [e1|] eqn:Eu; [|discriminate]. simpl in E. rewrite Rmult_1_r in E. injection E as -> ->.
  exists e, c. repeat (split; [auto|]). intros t Ht. rewrite Hp by exact Ht. unfold likelihood. simpl. rewrite Rmult_1_r. reflexivity.
Qed.

Lemma calibrated_intro (Sum : (O' -> R) -> R -> Prop) (g : O' -> O) (dom' : P -> Prop) (obs' : O' -> Prop) :
  (forall f c l, Sum f l -> Sum (fun o => c * f o) (c * l)) ->
  (forall o, obs' o -> obs (g o)) ->
  (forall d t, ok d -> dom' t -> dom t /\ Sum (fun o => lik t (g o)) 1) ->
  calibrated Sum dens (fun d o => update d (g o)) (fun d o => predict d (g o)) dom' ok obs'.
Proof.
  intros Sc Ho T d t Hd Ht. destruct (T d t Hd Ht) as (Hdt & S1).
  exists (fun o => dens d t * lik t (g o)). split.
  - intros o Hob. destruct (prequential_single d (g o) Hd (Ho o Hob)) as (e & c & Eu & Ep & Hc & _ & Hp).
    exists c, e. split; [exact Ep|]. split; [exact Eu|]. rewrite Hp by exact Hdt. field. lra.
  - pose proof (Sc _ (dens d t) _ S1) as Q. rewrite Rmult_1_r in Q. exact Q.
Qed.
End Generic.

Section Means.
Context {D O O' : Type} {Fa Fb : (R -> Prop) -> Prop} {FA : ProperFilter' Fa} {FB : ProperFilter' Fb}
  {dens : D -> R -> R} {lik : R -> O -> R}
  {update : D -> O -> res D} {predict : D -> O -> res R} {ok : D -> Prop} {obs : O -> Prop}.
Context (H : prequential (over1 Fa Fb) dens lik update predict anywhere ok obs).

Lemma mean_calibrated_intro (Sum : (O' -> R) -> R -> Prop) (g : O' -> O) (ok' : D -> Prop) (obs' : O' -> Prop)
  (shift : D -> D) (m0 : D -> R) :
  (forall f c l, Sum f l -> Sum (fun o => c * f o) (c * l)) ->
  (forall o, obs' o -> obs (g o)) ->
  (forall d, ok' d -> ok d /\ ok (shift d) /\ forall t, t * dens d t = m0 d * dens (shift d) t) ->
  (forall d, ok d -> over1 Fa Fb (dens d) 1) ->
  (forall d, ok d -> exists w, (forall o, obs' o -> predict d (g o) = Ok (w o)) /\ Sum w 1) ->
  mean_calibrated Sum Fa Fb dens (fun d o => update d (g o)) (fun d o => predict d (g o)) ok' obs'.
Proof.
  intros Sc Ho Sh T W d Hd. destruct (Sh d Hd) as (Ok1 & Ok2 & E). destruct (W (shift d) Ok2) as (w & Hw & Sw).
  exists (m0 d), (fun o => m0 d * w o). split; [|split].
  - unfold is_mean. apply (over1_ext Fa Fb (fun t => m0 d * dens (shift d) t)); [intros t; now rewrite E|].
    pose proof (is_RInt_gen_mult_l Fa Fb _ (m0 d) 1 (T _ Ok2)) as Q. rewrite Rmult_1_r in Q. exact Q.
  - intros o Hob.
    destruct (prequential_single H d (g o) Ok1 (Ho o Hob)) as (e & c & Eu & Ep & Hc & _ & Hp).
    destruct (prequential_single H (shift d) (g o) Ok2 (Ho o Hob)) as (e' & c' & _ & Ep' & _ & Hi & _).
    rewrite (Hw o Hob) in Ep'. injection Ep' as Ew.
    exists c, e, (m0 d / c * c'). split; [exact Ep|]. split; [exact Eu|]. split.
    + unfold is_mean. apply (over1_ext Fa Fb (fun t => m0 d / c * (likelihood lik [g o] t * dens (shift d) t))).
      * intros t. rewrite Hp by exact Logic.I. unfold likelihood. simpl.
        replace (t * (dens d t * lik t (g o) / c)) with (t * dens d t * lik t (g o) / c) by (field; lra).
        rewrite E. field. lra.
      * exact (is_RInt_gen_mult_l Fa Fb _ (m0 d / c) c' Hi).
    + rewrite <- Ew. field. lra.
  - pose proof (Sc _ (m0 d) _ Sw) as Q. rewrite Rmult_1_r in Q. exact Q.
Qed.
End Means.

(** ** ways of adding up *)
Lemma over_nat_scal f c l : over_nat f l -> over_nat (fun o => c * f o) (c * l).
Proof. unfold over_nat. intros H. exact (is_series_scal_l c f l H). Qed.
Lemma up_to_scal n f c l : up_to n f l -> up_to n (fun o => c * f o) (c * l).
Proof. unfold up_to. intros <-. rewrite scal_sum. apply sum_eq. intros. ring. Qed.
Lemma over_list_scal {O} (s : list O) f c l : over_list s f l -> over_list s (fun o => c * f o) (c * l).
Proof. unfold over_list. intros <-. induction s; simpl; [ring|]. rewrite IHs. unfold sumR. ring. Qed.
Lemma over_reals_scal Fa Fb {FA : ProperFilter' Fa} {FB : ProperFilter' Fb} f c l :
  over_reals Fa Fb f l -> over_reals Fa Fb (fun o => c * f o) (c * l).
Proof. exact (is_RInt_gen_mult_l Fa Fb f c l). Qed.

Lemma mass_over_nat f : is_mass 0 f -> over_nat (fun k => f (Z.of_nat k)) 1.
Proof. intros (_ & _ & H). exact H. Qed.
Lemma mass_up_to n f : is_mass 0 f -> (forall k, (n < k)%nat -> f (Z.of_nat k) = 0) -> up_to n (fun k => f (Z.of_nat k)) 1.
Proof.
  intros (_ & _ & H) Z0. unfold up_to.
  apply (is_series_unique (fun k => f (0 + Z.of_nat k)%Z)) in H as E. rewrite <- E. symmetry.
  apply is_series_unique.
  apply (is_lim_seq_ext_loc (fun _ => sum_f_R0 (fun k => f (Z.of_nat k)) n) _ (Finite _)); [|apply is_lim_seq_const].
  exists n. intros m Hm. rewrite sum_n_Reals. induction Hm.
  - reflexivity.
  - rewrite tech5, <- IHHm. cbn beta. rewrite Z.add_0_l, Z0 by lia. ring.
Qed.

(** ** the models *)
Lemma beta_shift d t : 0 < Beta_alpha d -> 0 < Beta_beta d ->
  t * pdf (Beta_dist d) t = Beta_alpha d / (Beta_alpha d + Beta_beta d) * pdf (Beta_dist (mkBeta (Beta_alpha d + 1) (Beta_beta d))) t.
Proof.
  destruct d as [a b]. cbn [Beta_alpha Beta_beta]. intros Ha Hb. unfold Beta_dist. cbn [Beta_alpha Beta_beta].
  destruct (Rlt_dec 0 t) as [H0|H0]; [destruct (Rlt_dec t 1) as [H1|H1]|].
  - rewrite !beta_pdf by lra. rewrite Beta_fun_succ_l by assumption. pose proof (Beta_fun_pos a b Ha Hb).
    replace (a + 1 - 1) with ((a - 1) + 1) by ring. rewrite Rpower_plus, Rpower_1 by assumption. field. lra.
  - rewrite !beta_pdf_out by lra. ring.
  - rewrite !beta_pdf_out by lra. ring.
Qed.
Lemma gamma_shift d t : 0 < Gamma_alpha d -> 0 < Gamma_beta d ->
  t * pdf (Gamma_dist d) t = Gamma_alpha d / Gamma_beta d * pdf (Gamma_dist (mkGamma (Gamma_alpha d + 1) (Gamma_beta d))) t.
Proof.
  destruct d as [a b]. cbn [Gamma_alpha Gamma_beta]. intros Ha Hb. unfold Gamma_dist. cbn [Gamma_alpha Gamma_beta nlit ndiv NumR].
  destruct (Rlt_dec 0 t) as [H0|H0].
  - rewrite !gamma_pdf by assumption. rewrite Gamma_fun_succ by assumption. pose proof (Gamma_fun_pos a Ha).
    replace (a + 1 - 1) with ((a - 1) + 1) by ring. rewrite !Rpower_plus, !Rpower_1 by assumption. field. lra.
  - rewrite !gamma_pdf_out by lra. ring.
Qed.
Lemma invgamma_shift a b t : 1 < a -> 0 < b ->
  t * pdf (S_invgamma_scale a b) t = b / (a - 1) * pdf (S_invgamma_scale (a - 1) b) t.
Proof.
  intros Ha Hb. destruct (Rlt_dec 0 t) as [H0|H0].
  - rewrite !invgamma_pdf by assumption. pose proof (Gamma_fun_pos (a - 1) ltac:(lra)).
    replace a with (a - 1 + 1) at 2 by ring. rewrite Gamma_fun_succ by lra.
    replace (- (a - 1) - 1) with ((- a - 1) + 1) by ring. rewrite Rpower_plus, Rpower_1 by assumption.
    replace (Rpower b a) with (Rpower b (a - 1) * b); [field; lra|].
    rewrite <- (Rpower_1 b) at 2 by assumption. rewrite <- Rpower_plus. f_equal. ring.
  - rewrite !invgamma_pdf_out by lra. ring.
Qed.

Lemma binomial_calibrated n :
  calibrated (up_to n) (fun d => pdf (Beta_dist d))
    (fun d k => Ok (binomial_beta (INR n) (INR k) d))
    (fun d k => Ok (pmf (BetaBinomial_dist (binomial_beta_predictive (INR n) d)) (Z.of_nat k)))
    (fun p => 0 < p < 1) (fun d => 0 < Beta_alpha d /\ 0 < Beta_beta d) (fun k => (k <= n)%nat).
Proof.
  apply (calibrated_intro binomial_prequential (up_to n) (fun k => (n, k))).
  - intros. now apply up_to_scal.
  - intros k Hk. exact Hk.
  - intros d t _ Ht. split; [exact Logic.I|]. cbn [fst snd].
    apply (mass_up_to n (pmf (Binomial_dist (mkBinomial (INR n) t)))); [apply Binomial_mass; lra|].
    intros k Hk. unfold Binomial_dist, pmf. cbn [Binomial_n Binomial_p]. rewrite Rnat_INR, Nat2Z.id.
    replace (k <=? n)%nat with false by (symmetry; apply Nat.leb_gt; lia). now rewrite Bool.andb_false_r.
Qed.
Lemma betabinom_out n a b k : (n < k)%nat -> pmf (S_betabinom (INR n) a b) (Z.of_nat k) = 0.
Proof.
  intros Hk. unfold pmf. rewrite Rnat_INR, Nat2Z.id.
  replace (k <=? n)%nat with false by (symmetry; apply Nat.leb_gt; lia). now rewrite Bool.andb_false_r.
Qed.
Lemma binomial_mean_calibrated n :
  mean_calibrated (up_to n) Fpos0 Fone (fun d => pdf (Beta_dist d))
    (fun d k => Ok (binomial_beta (INR n) (INR k) d))
    (fun d k => Ok (pmf (BetaBinomial_dist (binomial_beta_predictive (INR n) d)) (Z.of_nat k)))
    (fun d => 0 < Beta_alpha d /\ 0 < Beta_beta d) (fun k => (k <= n)%nat).
Proof.
  apply (mean_calibrated_intro binomial_prequential (up_to n) (fun k => (n, k))) with
    (shift := fun d => mkBeta (Beta_alpha d + 1) (Beta_beta d)) (m0 := fun d => Beta_alpha d / (Beta_alpha d + Beta_beta d)).
  - intros. now apply up_to_scal.
  - intros k Hk. exact Hk.
  - intros d (Ha & Hb). split; [auto|]. split; [simpl; lra|]. intros t. now apply beta_shift.
  - intros d (Ha & Hb). exact (proj2 (proj2 (Beta_density d Ha Hb))).
  - intros d (Ha & Hb). eexists. split; [reflexivity|]. cbn [fst snd].
    apply (mass_up_to n (pmf (BetaBinomial_dist (binomial_beta_predictive (INR n) d)))).
    + now apply BetaBinomial_mass.
    + intros k Hk. now apply betabinom_out.
Qed.

Lemma negative_binomial_calibrated (major minor micro : nat) (rest : list nat) (r : R) :
  0 < r -> (1 < major \/ (major = 1 /\ 12 <= minor))%nat ->
  calibrated over_nat (fun d => pdf (Beta_dist d))
    (fun d x => Ok (negative_binomial_beta r 1 (INR x) d))
    (fun d x => let* D := BetaNegativeBinomial_dist (major :: minor :: micro :: rest) (negative_binomial_beta_predictive r d) in Ok (pmf D (Z.of_nat x)))
    (fun p => 0 < p < 1) (fun d => 0 < Beta_alpha d /\ 0 < Beta_beta d) (fun _ => True).
Proof.
  intros Hr Hrel. apply (calibrated_intro (negative_binomial_prequential major minor micro rest r Hr Hrel) over_nat (fun k => k)).
  - exact over_nat_scal.
  - auto.
  - intros d t _ Ht. split; [exact Logic.I|]. apply (mass_over_nat (pmf (NegativeBinomial_dist (mkNegativeBinomial r t)))).
    apply NegativeBinomial_mass; simpl; lra.
Qed.
Lemma negative_binomial_mean_calibrated (major minor micro : nat) (rest : list nat) (r : R) :
  0 < r -> (1 < major \/ (major = 1 /\ 12 <= minor))%nat ->
  mean_calibrated over_nat Fpos0 Fone (fun d => pdf (Beta_dist d))
    (fun d x => Ok (negative_binomial_beta r 1 (INR x) d))
    (fun d x => let* D := BetaNegativeBinomial_dist (major :: minor :: micro :: rest) (negative_binomial_beta_predictive r d) in Ok (pmf D (Z.of_nat x)))
    (fun d => 0 < Beta_alpha d /\ 0 < Beta_beta d) (fun _ => True).
Proof.
  intros Hr Hrel. apply (mean_calibrated_intro (negative_binomial_prequential major minor micro rest r Hr Hrel) over_nat (fun k => k)) with
    (shift := fun d => mkBeta (Beta_alpha d + 1) (Beta_beta d)) (m0 := fun d => Beta_alpha d / (Beta_alpha d + Beta_beta d)).
  - exact over_nat_scal.
  - auto.
  - intros d (Ha & Hb). split; [auto|]. split; [simpl; lra|]. intros t. now apply beta_shift.
  - intros d (Ha & Hb). exact (proj2 (proj2 (Beta_density d Ha Hb))).
  - intros d (Ha & Hb).
    destruct (prequential_single (negative_binomial_prequential major minor micro rest r Hr Hrel) d 0%nat (conj Ha Hb) Logic.I) as (e & c & _ & Ep & _).
    destruct (BetaNegativeBinomial_dist (major :: minor :: micro :: rest) (negative_binomial_beta_predictive r d)) as [f|] eqn:Ef; [|discriminate].
    exists (fun k => pmf f (Z.of_nat k)). split; [reflexivity|]. apply mass_over_nat.
    apply (BetaNegativeBinomial_mass (major :: minor :: micro :: rest) (negative_binomial_beta_predictive r d) f); auto.
Qed.

Lemma poisson_calibrated :
  calibrated over_nat (fun d => pdf (Gamma_dist d))
    (fun d x => Ok (poisson_gamma (INR x) 1 d))
    (fun d x => Ok (pmf (NegativeBinomial_dist (poisson_gamma_predictive d 1)) (Z.of_nat x)))
    (fun lam => 0 < lam) (fun d => 0 < Gamma_alpha d /\ 0 < Gamma_beta d) (fun _ => True).
Proof.
  apply (calibrated_intro poisson_prequential over_nat (fun k => k)).
  - exact over_nat_scal.
  - auto.
  - intros d t _ Ht. split; [exact Logic.I|]. apply (mass_over_nat (pmf (Poisson_dist (mkPoisson t)))). apply Poisson_mass. simpl; lra.
Qed.
Lemma poisson_mean_calibrated :
  mean_calibrated over_nat Fpos0 Finf (fun d => pdf (Gamma_dist d))
    (fun d x => Ok (poisson_gamma (INR x) 1 d))
    (fun d x => Ok (pmf (NegativeBinomial_dist (poisson_gamma_predictive d 1)) (Z.of_nat x)))
    (fun d => 0 < Gamma_alpha d /\ 0 < Gamma_beta d) (fun _ => True).
Proof.
  apply (mean_calibrated_intro poisson_prequential over_nat (fun k => k)) with
    (shift := fun d => mkGamma (Gamma_alpha d + 1) (Gamma_beta d)) (m0 := fun d => Gamma_alpha d / Gamma_beta d).
  - exact over_nat_scal.
  - auto.
  - intros d (Ha & Hb). split; [auto|]. split; [simpl; lra|]. intros t. now apply gamma_shift.
  - intros d (Ha & Hb). exact (proj2 (proj2 (Gamma_density d Ha Hb))).
  - intros d (Ha & Hb). eexists. split; [reflexivity|].
    apply (mass_over_nat (pmf (NegativeBinomial_dist (poisson_gamma_predictive d 1)))).
    unfold poisson_gamma_predictive. apply NegativeBinomial_mass; cbn [NegativeBinomial_n NegativeBinomial_p nmul nadd ndiv nlit NumR].
    + lra.
    + split; [apply Rdiv_lt_0_compat; lra|]. apply (Rmult_le_reg_r (1 + Gamma_beta d)); [lra|]. unfold Rdiv. rewrite Rmult_assoc, Rinv_l by lra. lra.
Qed.

Lemma gamma_known_shape_calibrated alpha : 0 < alpha ->
  calibrated (over_reals Fpos0 Finf) (fun d => pdf (Gamma_dist d))
    (fun d x => Ok (gamma_known_shape x 1 alpha d))
    (fun d x => Ok (pdf (CompoundGamma_dist (gamma_known_shape_predictive d alpha)) x))
    (fun rate => 0 < rate) (fun d => 0 < Gamma_alpha d /\ 0 < Gamma_beta d) (fun x => 0 < x).
Proof.
  intros Hal. apply (calibrated_intro (gamma_known_shape_prequential alpha Hal) (over_reals Fpos0 Finf) (fun x => x)).
  - intros. now apply over_reals_scal; try typeclasses eauto.
  - auto.
  - intros d t _ Ht. split; [exact Logic.I|]. exact (proj2 (proj2 (Gamma_density (mkGamma alpha t) Hal Ht))).
Qed.
Lemma gamma_known_shape_mean_calibrated alpha : 0 < alpha ->
  mean_calibrated (over_reals Fpos0 Finf) Fpos0 Finf (fun d => pdf (Gamma_dist d))
    (fun d x => Ok (gamma_known_shape x 1 alpha d))
    (fun d x => Ok (pdf (CompoundGamma_dist (gamma_known_shape_predictive d alpha)) x))
    (fun d => 0 < Gamma_alpha d /\ 0 < Gamma_beta d) (fun x => 0 < x).
Proof.
  intros Hal. apply (mean_calibrated_intro (gamma_known_shape_prequential alpha Hal) (over_reals Fpos0 Finf) (fun x => x)) with
    (shift := fun d => mkGamma (Gamma_alpha d + 1) (Gamma_beta d)) (m0 := fun d => Gamma_alpha d / Gamma_beta d).
  - intros. now apply over_reals_scal; try typeclasses eauto.
  - auto.
  - intros d (Ha & Hb). split; [auto|]. split; [simpl; lra|]. intros t. now apply gamma_shift.
  - intros d (Ha & Hb). exact (proj2 (proj2 (Gamma_density d Ha Hb))).
  - intros d (Ha & Hb). eexists. split; [reflexivity|].
    exact (proj2 (CompoundGamma_total (gamma_known_shape_predictive d alpha) Hal Ha Hb)).
Qed.

Lemma normal_known_variance_calibrated var : 0 < var ->
  calibrated (over_reals Fminf Finf) (fun d => pdf (Normal_dist d))
    (fun d x => Ok (normal_known_variance x 1 var d))
    (fun d x => Ok (pdf (Normal_dist (normal_known_variance_predictive var d)) x))
    anywhere (fun d => 0 < Normal_sigma d) (fun _ => True).
Proof.
  intros Hv. apply (calibrated_intro (normal_known_variance_prequential var Hv) (over_reals Fminf Finf) (fun x => x)).
  - intros. now apply over_reals_scal; try typeclasses eauto.
  - auto.
  - intros d t _ Ht. split; [exact Logic.I|].
    exact (proj2 (proj2 (Normal_density (mkNormal t (sqrt var)) (sqrt_lt_R0 _ Hv)))).
Qed.
Lemma normal_known_precision_calibrated precision : 0 < precision ->
  calibrated (over_reals Fminf Finf) (fun d => pdf (Normal_dist d))
    (fun d x => Ok (normal_known_precision x 1 precision d))
    (fun d x => Ok (pdf (Normal_dist (normal_known_precision_predictive precision d)) x))
    anywhere (fun d => 0 < Normal_sigma d) (fun _ => True).
Proof.
  intros Hv. apply (calibrated_intro (normal_known_precision_prequential precision Hv) (over_reals Fminf Finf) (fun x => x)).
  - intros. now apply over_reals_scal; try typeclasses eauto.
  - auto.
  - intros d t _ Ht. split; [exact Logic.I|].
    exact (proj2 (proj2 (Normal_density (mkNormal t (/ sqrt precision)) (Rinv_0_lt_compat _ (sqrt_lt_R0 _ Hv))))).
Qed.
Lemma normal_known_variance_mean_calibrated var : 0 < var ->
  mean_calibrated (over_reals Fminf Finf) Fminf Finf (fun d => pdf (Normal_dist d))
    (fun d x => Ok (normal_known_variance x 1 var d))
    (fun d x => Ok (pdf (Normal_dist (normal_known_variance_predictive var d)) x))
    (fun d => 0 < Normal_sigma d) (fun _ => True).
Proof.
  intros Hv d Hs. destruct d as [mu s]. cbn [Normal_sigma] in Hs.
  assert (Hs2 : 0 < s ^ 2) by now apply pow_lt.
  assert (Hi : 0 < 1 / s ^ 2 + 1 / var) by (pose proof (Rdiv_lt_0_compat 1 _ Rlt_0_1 Hs2); pose proof (Rdiv_lt_0_compat 1 _ Rlt_0_1 Hv); lra).
  assert (Hp : 0 < sqrt (var + s ^ 2)) by (apply sqrt_lt_R0; lra).
  set (f := pdf (S_norm mu (sqrt (var + s ^ 2)))).
  exists mu, (fun x => (mu / s ^ 2 / (1 / s ^ 2 + 1 / var)) * f x + (/ var / (1 / s ^ 2 + 1 / var)) * (x * f x)).
  split; [now apply norm_mean|]. split.
  - intros x _. do 3 eexists. split; [reflexivity|]. split; [reflexivity|]. split.
    + unfold normal_known_variance, Normal_dist. cbn [Normal_mu Normal_sigma]. apply norm_mean.
      cbn [nsqrt ndiv nadd nlit nsq NumR]. apply sqrt_lt_R0. now apply Rdiv_lt_0_compat; [exact Rlt_0_1|].
    + cbn [Normal_mu Normal_sigma nsqrt ndiv nadd nlit nsq NumR].
      change (pdf (Normal_dist (normal_known_variance_predictive var (mkNormal mu s))) x) with (f x).
      unfold Rdiv. ring.
  - unfold over_reals. set (A := mu / s ^ 2 / (1 / s ^ 2 + 1 / var)). set (B := / var / (1 / s ^ 2 + 1 / var)).
    pose proof (is_RInt_gen_mult_l Fminf Finf _ A _ (proj2 (proj2 (Normal_density (mkNormal mu (sqrt (var + s ^ 2))) Hp)))) as Q1.
    pose proof (is_RInt_gen_mult_l Fminf Finf _ B _ (norm_mean mu (sqrt (var + s ^ 2)) Hp)) as Q2.
    pose proof (is_RInt_gen_plus (V := R_NormedModule) _ _ _ _ Q1 Q2) as Q.
    assert (E : A * 1 + B * mu = mu).
    { unfold A, B. field. split; [lra|]. split; [lra|]. nra. }
    change (plus (A * 1) (B * mu)) with (A * 1 + B * mu) in Q. rewrite E in Q. exact Q.
Qed.

Lemma normal_known_precision_mean_calibrated precision : 0 < precision ->
  mean_calibrated (over_reals Fminf Finf) Fminf Finf (fun d => pdf (Normal_dist d))
    (fun d x => Ok (normal_known_precision x 1 precision d))
    (fun d x => Ok (pdf (Normal_dist (normal_known_precision_predictive precision d)) x))
    (fun d => 0 < Normal_sigma d) (fun _ => True).
Proof. intros Hv. exact (normal_known_variance_mean_calibrated (1 / precision) (Rdiv_lt_0_compat _ _ Rlt_0_1 Hv)). Qed.

Lemma bernoulli_calibrated :
  calibrated (up_to 1) (fun d => pdf (Beta_dist d))
    (fun d k => Ok (bernoulli_beta (INR k) d))
    (fun d k => Ok (pmf (BetaBinomial_dist (bernoulli_beta_predictive d)) (Z.of_nat k)))
    (fun p => 0 < p < 1) (fun d => 0 < Beta_alpha d /\ 0 < Beta_beta d) (fun k => (k <= 1)%nat).
Proof.
  apply (calibrated_intro bernoulli_prequential (up_to 1) (fun k => k)).
  - intros. now apply up_to_scal.
  - auto.
  - intros d t _ Ht. split; [exact Logic.I|]. unfold up_to. simpl. ring.
Qed.
Lemma bernoulli_mean_calibrated :
  mean_calibrated (up_to 1) Fpos0 Fone (fun d => pdf (Beta_dist d))
    (fun d k => Ok (bernoulli_beta (INR k) d))
    (fun d k => Ok (pmf (BetaBinomial_dist (bernoulli_beta_predictive d)) (Z.of_nat k)))
    (fun d => 0 < Beta_alpha d /\ 0 < Beta_beta d) (fun k => (k <= 1)%nat).
Proof.
  apply (mean_calibrated_intro bernoulli_prequential (up_to 1) (fun k => k)) with
    (shift := fun d => mkBeta (Beta_alpha d + 1) (Beta_beta d)) (m0 := fun d => Beta_alpha d / (Beta_alpha d + Beta_beta d)).
  - intros. now apply up_to_scal.
  - auto.
  - intros d (Ha & Hb). split; [auto|]. split; [simpl; lra|]. intros t. now apply beta_shift.
  - intros d (Ha & Hb). exact (proj2 (proj2 (Beta_density d Ha Hb))).
  - intros d (Ha & Hb). eexists. split; [reflexivity|].
    apply (mass_up_to 1 (pmf (BetaBinomial_dist (binomial_beta_predictive (INR 1) d)))).
    + now apply BetaBinomial_mass.
    + intros k Hk. now apply betabinom_out.
Qed.

Lemma normal_known_mean_calibrated mu :
  calibrated (over_reals Fminf Finf) (fun d => pdf (variance_dist d))
    (fun d x => Ok (normal_known_mean x (x ^ 2) 1 mu d))
    (fun d x => Ok (pdf (StudentT_dist (normal_known_mean_predictive mu d)) x))
    (fun v => 0 < v) variance_ok (fun _ => True).
Proof.
  apply (calibrated_intro (normal_known_mean_prequential mu) (over_reals Fminf Finf) (fun x => x)).
  - intros. now apply over_reals_scal; try typeclasses eauto.
  - auto.
  - intros d t _ Ht. split; [exact Logic.I|].
    exact (proj2 (proj2 (Normal_density (mkNormal mu (sqrt t)) (sqrt_lt_R0 _ Ht)))).
Qed.

Definition variance_shift (d : VariancePrior R) : VariancePrior R :=
  match d with
  | VIG d => VIG (mkInverseGamma (InverseGamma_alpha d - 1) (InverseGamma_beta d))
  | VSICS d => let nu := ScaledInverseChiSquared_nu d in
      VSICS (mkScaledInverseChiSquared (nu - 2) (nu * ScaledInverseChiSquared_sigma2 d / (nu - 2)))
  end.
Definition variance_mean (d : VariancePrior R) : R :=
  match d with
  | VIG d => InverseGamma_beta d / (InverseGamma_alpha d - 1)
  | VSICS d => let nu := ScaledInverseChiSquared_nu d in nu * ScaledInverseChiSquared_sigma2 d / (nu - 2)
  end.
Lemma normal_known_mean_mean_calibrated mu :
  mean_calibrated (over_reals Fminf Finf) Fpos0 Finf (fun d => pdf (variance_dist d))
    (fun d x => Ok (normal_known_mean x (x ^ 2) 1 mu d))
    (fun d x => Ok (pdf (StudentT_dist (normal_known_mean_predictive mu d)) x))
    (fun d => variance_ok d /\ match d with VIG d => 1 < InverseGamma_alpha d | VSICS d => 2 < ScaledInverseChiSquared_nu d end)
    (fun _ => True).
Proof.
  apply (mean_calibrated_intro (normal_known_mean_prequential mu) (over_reals Fminf Finf) (fun x => x)) with
    (shift := variance_shift) (m0 := variance_mean).
  - intros. now apply over_reals_scal; try typeclasses eauto.
  - auto.
  - intros [[a b]|[nu s2]] ((Ha & Hb) & H1); cbn [InverseGamma_alpha InverseGamma_beta ScaledInverseChiSquared_nu ScaledInverseChiSquared_sigma2] in *.
    + split; [split; auto|]. split; [split; cbn [InverseGamma_alpha InverseGamma_beta]; lra|]. intros t. now apply invgamma_shift.
    + split; [split; auto|]. cbn [variance_shift variance_ok ScaledInverseChiSquared_nu ScaledInverseChiSquared_sigma2]. split.
      * split; [lra|]. apply Rdiv_lt_0_compat; [|lra]. now apply Rmult_lt_0_compat.
      * intros t. unfold variance_mean, variance_dist, ScaledInverseChiSquared_dist.
        cbn [ScaledInverseChiSquared_nu ScaledInverseChiSquared_sigma2 ndiv nmul nlit NumR].
        assert (0 < nu * s2 / 2) by (apply Rdiv_lt_0_compat; [now apply Rmult_lt_0_compat|lra]).
        rewrite invgamma_shift by lra.
        replace (nu / 2 - 1) with ((nu - 2) / 2) by field.
        replace ((nu - 2) * (nu * s2 / (nu - 2)) / 2) with (nu * s2 / 2) by (field; lra).
        f_equal. field. lra.
  - intros [d|d] (Ha & Hb). exact (proj2 (proj2 (InverseGamma_density d Ha Hb))).
    exact (proj2 (proj2 (ScaledInverseChiSquared_density d Ha Hb))).
  - intros d Hd. exists (pdf (StudentT_dist (normal_known_mean_predictive mu d))). split; [reflexivity|].
    refine (proj2 (proj2 (StudentT_density _ _ _)));
    destruct d as [[a b]|[nu s2]]; destruct Hd as (Ha & Hb);
    cbn [InverseGamma_alpha InverseGamma_beta ScaledInverseChiSquared_nu ScaledInverseChiSquared_sigma2 normal_known_mean_predictive
      ScaledInverseChiSquared_to_inverse_gamma StudentT_nu StudentT_sigma ndiv nmul nlit nsqrt NumR] in *; try lra.
    + apply sqrt_lt_R0, Rdiv_lt_0_compat; lra.
    + apply sqrt_lt_R0, Rdiv_lt_0_compat; [|lra]. apply Rdiv_lt_0_compat; [now apply Rmult_lt_0_compat|lra].
Qed.

Lemma normal_calibrated {M : Type} :
  calibrated (over_reals Fminf Finf) (fun (d : NormalPrior R M) p => normal_prior_pdf d (fst p) (snd p))
    (fun d x => normal x (x ^ 2) 1 d)
    (fun d x => let* t := normal_predictive d in Ok (pdf (StudentT_dist t) x))
    (fun p => 0 < snd p) normal_prior_ok (fun _ => True).
Proof.
  intros d p Hd Hp.
  refine (calibrated_intro (normal_prequential (M := M) (normal_obs_sd d)) (over_reals Fminf Finf) (fun x => x) (fun p => 0 < snd p) (fun _ => True) _ _ _ d p _ Hp).
  - intros. now apply over_reals_scal; try typeclasses eauto.
  - auto.
  - intros d' [m v] _ Hv. split; [exact Logic.I|]. cbn [fst snd] in *.
    refine (proj2 (proj2 (Normal_density (mkNormal m (normal_obs_sd d v)) _))). destruct d; simpl.
    now apply sqrt_lt_R0. now apply Rinv_0_lt_compat, sqrt_lt_R0.
  - split; [exact Hd|reflexivity].
Qed.

(** ** the simplex *)
Definition mterm (p : list R) (x : list nat) : R := prodR (map (fun q => fst q ^ snd q / INR (fact (snd q))) (combine p x)).

Lemma multinomial_theorem p : forall n, sumR (map (mterm p) (compositions (length p) n)) =
  match p with [] => match n with O => 1 | _ => 0 end | _ => sumR p ^ n / INR (fact n) end.
Proof.
  induction p as [|a p IH]; intros n.
  - destruct n; unfold mterm; simpl; lra.
  - cbn [length compositions]. rewrite sumR_flat.
    assert (E : forall k, sumR (map (mterm (a :: p)) (map (cons k) (compositions (length p) (n - k)))) =
      a ^ k / INR (fact k) * sumR (map (mterm p) (compositions (length p) (n - k)))).
    { intros k. rewrite map_map. rewrite <- sumR_scal. f_equal. }
    rewrite (map_ext _ _ E). rewrite sumR_sum_f.
    destruct p as [|b p].
    + destruct n as [|n]. simpl. unfold mterm; simpl. field.
      rewrite tech5. rewrite (sum_eq _ (fun _ => 0 * 0)).
      * rewrite <- scal_sum, Nat.sub_diag. cbn [sumR fold_right]. rewrite Rplus_0_r. rewrite IH. ring.
      * intros i Hi. rewrite IH. replace (S n - i)%nat with (S (n - i)) by lia. ring.
    + change (sumR (a :: b :: p)) with (a + sumR (b :: p)). rewrite binomial.
      match goal with |- _ = ?s / _ => transitivity (/ INR (fact n) * s); [|unfold Rdiv; apply Rmult_comm] end. rewrite scal_sum.
      apply sum_eq. intros i Hi. rewrite IH. unfold Binomial.C.
      pose proof (INR_fact_lt_0 n). pose proof (INR_fact_lt_0 i). pose proof (INR_fact_lt_0 (n - i)). field. lra.
Qed.

Lemma multinomial_total p N : p <> [] -> sumR p = 1 -> over_list (compositions (length p) N) (multinomial_pmf p) 1.
Proof.
  intros Hp S1. unfold over_list.
  rewrite (map_ext_in _ (fun x => INR (fact N) * mterm p x)).
  - rewrite sumR_scal, multinomial_theorem. destruct p; [congruence|]. rewrite S1, pow1. pose proof (INR_fact_lt_0 N). field. lra.
  - intros x Hx. apply compositions_in in Hx as (L & <-). unfold multinomial_pmf, multinomial_coef, mterm, Rdiv. rewrite Rmult_assoc. f_equal.
    clear Hp S1. revert p L. induction x as [|k x IH]; intros [|a p] L; try discriminate; simpl.
    + field.
    + change (fold_right Rmult 1) with prodR. injection L as L. rewrite <- (IH p L).
      rewrite Rinv_mult. ring.
Qed.
Lemma multinomial_calibrated (n N : nat) :
  calibrated (over_list (compositions (S n) N)) (fun d => dirichlet_pdf (alphas n (Dirichlet_alpha d)))
    (fun d x => with_alpha (multinomial_dirichlet (CArr (as_array (map INR x)))) d)
    (fun d x => let P := multinomial_dirichlet_predictive (Some (INR N)) d in
       Ok (dirichlet_multinomial_pmf (alphas n (DirichletMultinomial_alpha P)) (Rnat (DirichletMultinomial_n P)) x))
    (on_simplex n 1) (dirichlet_ok n) (fun x => length x = S n /\ sumN x = N).
Proof.
  intros d t Hd Ht.
  destruct (calibrated_intro (multinomial_prequential n) (over_list (compositions (S n) N)) (fun x => x) (on_simplex n 1) (fun x => length x = S n /\ sumN x = N))
    with (d := d) (t := t) as (w & Hw & S); auto.
  - intros. now apply over_list_scal.
  - intros x (L & _). exact L.
  - intros d' p _ Hp. split; [exact Hp|]. destruct Hp as (L & _ & S1). rewrite <- L. apply multinomial_total; [|exact S1].
    intros ->. discriminate.
  - exists w. split; [|exact S]. intros x (L & <-). exact (Hw x (conj L eq_refl)).
Qed.
Lemma categorical_calibrated (n : nat) :
  calibrated (up_to n) (fun d => dirichlet_pdf (alphas n (Dirichlet_alpha d)))
    (fun d k => with_alpha (categorical_dirichlet (CArr (as_array (map INR (counts n [k]))))) d)
    (fun d k => let P := categorical_dirichlet_predictive None d in
       Ok (dirichlet_multinomial_pmf (alphas n (DirichletMultinomial_alpha P)) (Rnat (DirichletMultinomial_n P)) (counts n [k])))
    (on_simplex n 1) (dirichlet_ok n) (fun k => (k <= n)%nat).
Proof.
  apply (calibrated_intro (categorical_prequential n) (up_to n) (fun k => k)).
  - intros. now apply up_to_scal.
  - auto.
  - intros d p _ Hp. split; [exact Hp|]. destruct Hp as (L & _ & S1). unfold up_to. rewrite <- sumR_sum_f. unfold categorical_pmf.
    rewrite <- L, map_seq_nth. exact S1.
Qed.
