(** Quantiles of the continuous distributions. *)

From Coq Require Import Reals Lra Lia ZArith.
From Coquelicot Require Import Coquelicot.
From Verif Require Import Model.Num Model.Py Model.Dists Model.ScipyDist Model.Models Spec.Special Spec.Densities Spec.Normalised Spec.Dominance Spec.Bayes Spec.Joint Spec.Limits Spec.Quantile.
From Verif Require Import Analysis.Improper Analysis.RealAux Analysis.GammaBeta Analysis.GammaFacts Analysis.Dominance Analysis.Quantile Proofs.Pdfs Proofs.Normalised Proofs.Moments Proofs.Dominance Analysis.Gauss Analysis.Moments.
Open Scope R_scope.

(** What the quantile lemmas need. *)
Record nice (lo hi : Rbar) (f : R -> R) : Prop := {
  n_ends : Ends (inside lo hi) (from lo) (upto hi);
  n_cont : cont_on f (inside lo hi);
  n_pos : forall x, inside lo hi x -> 0 < f x;
  n_total : is_RInt_gen f (from lo) (upto hi) 1 }.

Lemma inside_pos : Ends (inside 0 p_infty) (from 0) (upto p_infty).
Proof. apply (ends_iff (fun x => 0 < x)). intros x; unfold inside; cbn; tauto. apply ends_pos. Qed.
Lemma inside_above (a : R) : Ends (inside a p_infty) (from a) (upto p_infty).
Proof. apply (ends_iff (fun x => a < x)). intros x; unfold inside; cbn; tauto. apply ends_above. Qed.
Lemma inside_line : Ends (inside m_infty p_infty) (from m_infty) (upto p_infty).
Proof. apply (ends_iff (fun x => True)). intros x; unfold inside; cbn; tauto. apply ends_line. Qed.
Lemma inside_open (a b : R) : a < b -> Ends (inside a b) (from a) (upto b).
Proof. intros H. apply (ends_iff (fun x => a < x < b)). intros x; unfold inside; cbn; tauto. now apply ends_open. Qed.

Lemma inside_locally lo hi (x : R) : inside lo hi x -> locally x (inside lo hi).
Proof. intros [H1 H2]. apply (filter_and (F := locally x)). exact (open_Rbar_gt' x lo H1). exact (open_Rbar_lt' x hi H2). Qed.
(** continuity of a formula that holds on the support *)
Lemma cont_formula lo hi f g : (forall x, inside lo hi x -> g x = f x) -> (forall x, inside lo hi x -> continuous g x) ->
  cont_on f (inside lo hi).
Proof.
  intros E H x Hx. apply continuous_ext_loc with g; [|now apply H].
  generalize (inside_locally lo hi x Hx). apply filter_imp. exact E.
Qed.
Lemma nice_formula lo hi f g : Ends (inside lo hi) (from lo) (upto hi) -> is_density lo hi f ->
  (forall x, inside lo hi x -> g x = f x) -> (forall x, inside lo hi x -> continuous g x) -> (forall x, inside lo hi x -> 0 < g x) ->
  nice lo hi f.
Proof.
  intros He (_ & _ & Hd) E C P. split; auto. now apply (cont_formula lo hi f g). intros x Hx. rewrite <- E by auto. now apply P.
Qed.

Ltac cont := intros x Hx; unfold inside in Hx; cbn in Hx; apply (ex_derive_continuous (V:=R_NormedModule)); unfold Rpower; auto_derive;
  repeat split; auto; try lra.
Ltac pos0 := repeat (apply Rdiv_lt_0_compat || apply Rmult_lt_0_compat || apply Rpower_pos || apply exp_pos || apply Rinv_0_lt_compat); auto; try lra.
Ltac pos := intros x Hx; unfold inside in Hx; cbn in Hx; pos0.

Lemma scaled_pos x s : 0 < s -> 0 < x -> 0 < (x - 0) / s.
Proof. intros. apply Rdiv_lt_0_compat; lra. Qed.

Lemma gamma_nice a s : 0 < a -> 0 < s -> nice 0 p_infty (pdf (S_gamma_scale a s)).
Proof.
  intros Ha Hs. pose proof (Gamma_fun_pos a Ha).
  apply nice_formula with (g := fun x => Rpower ((x - 0) / s) (a - 1) * exp (- ((x - 0) / s)) / Gamma_fun a / s).
  apply inside_pos. now apply gamma_density.
  - intros x [Hx _]. simpl in Hx. cbn [pdf]. unfold locscale, std_gamma. rewrite ltb_true by now apply scaled_pos. reflexivity.
  - cont. now apply scaled_pos.
  - pos.
Qed.
Lemma invgamma_nice a s : 0 < a -> 0 < s -> nice 0 p_infty (pdf (S_invgamma_scale a s)).
Proof.
  intros Ha Hs. pose proof (Gamma_fun_pos a Ha).
  apply nice_formula with (g := fun x => Rpower ((x - 0) / s) (- a - 1) / Gamma_fun a * exp (- (1 / ((x - 0) / s))) / s).
  apply inside_pos. now apply invgamma_density.
  - intros x [Hx _]. simpl in Hx. cbn [pdf]. unfold locscale, std_invgamma. rewrite ltb_true by now apply scaled_pos. reflexivity.
  - cont. now apply scaled_pos. apply Rgt_not_eq. now apply (scaled_pos x s).
  - pos.
Qed.

Lemma valid_nice lo hi d : valid lo hi d -> nice lo hi (pdf d).
Proof.
  intros [[a b]|[a b]|[l]|[a b]|[n s2]|[m s]|[m s n]|[l h]|[xm a]|[al la]|[be th]|[m s]|[a b q]]; cbn in *; intros.
  - pose proof (Beta_fun_pos a b H H0).
    apply nice_formula with (g := fun x => Rpower x (a - 1) * Rpower (1 - x) (b - 1) / Beta_fun a b).
    apply inside_open; lra. exact (Beta_density (mkBeta a b) H H0).
    + intros x [Hx Hx']. simpl in Hx, Hx'. cbn. unfold std_beta. rewrite !ltb_true by lra. reflexivity.
    + cont.
    + pos.
  - apply gamma_nice; auto. cbn. apply Rdiv_lt_0_compat; auto. exact Rlt_0_1.
  - apply nice_formula with (g := fun x => exp (- ((x - 0) / l)) / l). apply inside_pos. exact (Exponential_density (mkExponential l) H).
    + intros x [Hx _]. simpl in Hx. cbn. unfold locscale, std_expon. rewrite leb_true. reflexivity. left. now apply scaled_pos.
    + cont.
    + pos.
  - now apply invgamma_nice.
  - apply invgamma_nice; cbn; repeat (apply Rdiv_lt_0_compat || apply Rmult_lt_0_compat); auto; lra.
  - apply nice_formula with (g := pdf (S_norm m s)). apply inside_line. exact (Normal_density (mkNormal m s) H). reflexivity.
    + intros x _. apply (continuous_scal_l (fun x => std_norm ((x - m) / s)) (/ s)). apply (continuous_comp (fun x => (x - m) / s) std_norm).
      apply (ex_derive_continuous (V:=R_NormedModule)). auto_derive. auto. apply cont_std_norm.
    + intros x _. cbn. unfold locscale, std_norm. pose proof sqrt_2pi_pos. pos0.
  - apply nice_formula with (g := pdf (S_t n m s)). apply inside_line. exact (StudentT_density (mkStudentT m s n) H H0). reflexivity.
    + intros x _. apply (continuous_scal_l (fun x => std_t n ((x - m) / s)) (/ s)). apply (continuous_comp (fun x => (x - m) / s) (std_t n)).
      apply (ex_derive_continuous (V:=R_NormedModule)). auto_derive. auto. now apply cont_std_t.
    + intros x _. cbn. unfold locscale, std_t. pose proof PI_RGT_0. assert (0 < PI * n) by (apply Rmult_lt_0_compat; auto).
      assert (0 < Gamma_fun ((n + 1) / 2)) by (apply Gamma_fun_pos; lra). assert (0 < Gamma_fun (n / 2)) by (apply Gamma_fun_pos; lra).
      pose proof (sqrt_lt_R0 _ H2). pos0.
  - apply nice_formula with (g := fun x => / h). apply inside_open; lra. exact (Uniform_density (mkUniform l h) H).
    + intros x [Hx Hx']. simpl in Hx, Hx'. symmetry. exact (uniform_pdf l h x H ltac:(lra)).
    + intros x _. apply continuous_const.
    + pos.
  - apply nice_formula with (g := fun x => a * Rpower xm a / Rpower x (a + 1)). apply inside_above. exact (Pareto_density (mkPareto xm a) H H0).
    + intros x [Hx _]. simpl in Hx. symmetry. exact (pareto_pdf a xm x H ltac:(lra)).
    + cont. apply Rgt_not_eq, exp_pos.
    + pos.
  - apply nice_formula with (g := fun x => al / Rpower (1 + (x - 0) / la) (al + 1) / la). apply inside_pos. exact (Lomax_density (mkLomax al la) H H0).
    + intros x [Hx _]. simpl in Hx. cbn. unfold locscale, std_lomax. rewrite leb_true. reflexivity. left. now apply scaled_pos.
    + cont. pose proof (scaled_pos x la). lra. apply Rgt_not_eq, exp_pos.
    + pos.
  - set (s := Rpower th (1 / be)). assert (Hs : 0 < s) by apply Rpower_pos.
    apply nice_formula with (g := fun x => be * Rpower ((x - 0) / s) (be - 1) * exp (- Rpower ((x - 0) / s) be) / s). apply inside_pos. now apply weibull_density.
    + intros x [Hx _]. simpl in Hx. cbn. fold s. unfold locscale, std_weibull_min. rewrite ltb_true by now apply scaled_pos. reflexivity.
    + cont; now apply scaled_pos.
    + pos.
  - apply nice_formula with (g := fun x => / (s * ((x - m) / 1) * sqrt (2 * PI)) * exp (- (ln ((x - m) / 1)) ^ 2 / (2 * s ^ 2)) / 1).
    apply inside_above. exact (LogNormal_density (mkLogNormal m s) H).
    + intros x [Hx _]. simpl in Hx. cbn. unfold locscale, std_lognorm. rewrite ltb_true. reflexivity. apply Rdiv_lt_0_compat; lra.
    + pose proof sqrt_2pi_pos. cont; try (apply Rdiv_lt_0_compat; lra).
      assert (0 < (x + - m) / 1) by (apply Rdiv_lt_0_compat; lra). repeat apply Rmult_integral_contrapositive_currified; lra.
    + pose proof sqrt_2pi_pos. pos.
  - destruct (CompoundGamma_total (mkCompoundGamma a b q) H H0 H1) as [P T]. split. apply inside_pos. 2: intros x [Hx _]; now apply P. 2: exact T.
    pose proof (Beta_fun_pos a b H H0).
    apply cont_formula with (fun x => exp ((a - 1) * ln (x / q)) * exp ((0 - a - b) * ln (1 + x / q)) / (q * Beta_fun a b)). reflexivity.
    intros x [Hx _]. cbn in Hx. assert (0 < x / q) by (apply Rdiv_lt_0_compat; lra).
    apply (ex_derive_continuous (V:=R_NormedModule)). auto_derive. repeat split; lra.
Qed.

Section Nice.
Context (lo hi : Rbar) (f : R -> R) (N : nice lo hi f).
Let E := n_ends _ _ _ N.
Let C := n_cont _ _ _ N.
Let P := n_pos _ _ _ N.
Let T := n_total _ _ _ N.

Lemma nice_quantile q : 0 < q < 1 -> exists! t, is_quantile lo hi f q t.
Proof.
  intros Hq. destruct (quantile_exists _ _ _ E f C P T q Hq) as (t & It & Ht). exists t. split. split; auto.
  intros u [Iu Hu]. now apply (cdf_increasing _ _ _ E f C P t u q q).
Qed.
Lemma nice_curve t : inside lo hi t -> exists p, 0 < p < 1 /\ at_most lo f t p /\ at_least hi f t (1 - p).
Proof.
  intros It. destruct (cdf_exists _ _ _ E f C P T t It) as (p & u & Hp & Hu & Epu).
  exists p. assert (X : exists s v, inside lo hi s /\ inside lo hi v /\ s < t < v).
  { destruct (inside_locally lo hi t It) as (e & He). pose proof (cond_pos e).
    exists (t - e / 2), (t + e / 2). assert (B : forall d, Rabs d < e -> inside lo hi (t + d)).
    { intros d Hd. apply He. unfold ball; simpl; unfold AbsRing_ball, abs, minus, plus, opp; simpl. now replace (t + d + - t) with d by ring. }
    repeat split; try (apply (B (e / 2)); rewrite Rabs_right; lra); try lra;
    unfold Rminus; apply (B (- (e / 2))); rewrite Rabs_Ropp, Rabs_right; lra. }
  destruct X as (s & v & Is & Iv & Hst & Htv).
  destruct (cdf_exists _ _ _ E f C P T s Is) as (p1 & u1 & Hp1 & Hu1 & E1). destruct (cdf_exists _ _ _ E f C P T v Iv) as (p2 & u2 & Hp2 & Hu2 & E2).
  pose proof (proj1 (proj1 (cdf_increasing _ _ _ E f C P s t p1 p Is It Hp1 Hp)) Hst).
  pose proof (proj1 (proj1 (cdf_increasing _ _ _ E f C P t v p p2 It Iv Hp Hp2)) Htv).
  assert (P' : forall x, inside lo hi x -> 0 <= f x) by (intros x Hx; specialize (P x Hx); lra).
  assert (0 <= p1).
  { rewrite <- (RInt_point s f : RInt f s s = 0). apply (is_RInt_gen_ge _ _ _ (ends_left _ _ _ E s Is) f); auto; try (intros x [Hx _]; auto); try lra; split; auto; lra. }
  assert (0 <= u2).
  { rewrite <- (RInt_point v f : RInt f v v = 0). apply (is_RInt_gen_ge _ _ _ (ends_right _ _ _ E v Iv) f); auto; try (intros x [Hx _]; auto); try lra; split; auto; lra. }
  split. lra. split. exact Hp. replace (1 - p) with u by lra. exact Hu.
Qed.
Lemma nice_increasing s t p q : inside lo hi s -> inside lo hi t -> at_most lo f s p -> at_most lo f t q -> (s < t <-> p < q).
Proof. intros Is It Hp Hq. exact (proj1 (cdf_increasing _ _ _ E f C P s t p q Is It Hp Hq)). Qed.
Lemma credible_quantiles level a b : 0 < level < 1 ->
  credible lo hi f level (a, b) <-> is_quantile lo hi f ((1 - level) / 2) a /\ is_quantile lo hi f ((1 + level) / 2) b.
Proof.
  intros Hl. unfold credible, is_quantile. split.
  - intros (Ia & Ib & Hab & Ha & _ & Hb). split; split; auto. replace ((1 + level) / 2) with (1 - (1 - level) / 2) by field.
    exact (lower_tail _ _ _ E f C P T b _ Ib Hb).
  - intros ((Ia & Ha) & (Ib & Hb)). assert (Hab : a < b) by (apply (nice_increasing a b _ _ Ia Ib Ha Hb); lra).
    assert (Hu : at_least hi f b ((1 - level) / 2)) by (replace ((1 - level) / 2) with (1 - (1 + level) / 2) by field; exact (upper_tail _ _ _ E f C P T b _ Ib Hb)).
    repeat (split; auto). replace level with (1 - (1 - level) / 2 - (1 - level) / 2) by field. exact (between _ _ _ E f C P T a b _ _ Ia Ib Hab Ha Hu).
Qed.
Lemma nice_credible level : 0 < level < 1 -> exists! ab, credible lo hi f level ab.
Proof.
  intros Hl. destruct (nice_quantile ((1 - level) / 2)) as (a & Ha & Ua); [lra|]. destruct (nice_quantile ((1 + level) / 2)) as (b & Hb & Ub); [lra|].
  exists (a, b). split. now apply credible_quantiles. intros (a', b') H. apply credible_quantiles in H as [Ha' Hb']; auto.
  now rewrite (Ua a' Ha'), (Ub b' Hb').
Qed.
End Nice.

Lemma quantiles_up lo hi f g (dom : R -> Prop) q t u : nice lo hi f -> nice lo hi g -> (forall x, inside lo hi x -> dom x) ->
  moved_up (from lo) dom f g -> is_quantile lo hi f q t -> is_quantile lo hi g q u -> t < u.
Proof.
  intros Nf Ng Hd M [It Ht] [Iu Hu]. destruct (M t (Hd t It)) as (pf & pg & Hpf & Hpg & Hlt).
  assert (Eq : pf = q) by exact (cdf_unique _ _ _ (n_ends _ _ _ Nf) f t pf q It Hpf Ht). rewrite Eq in Hlt.
  exact (proj2 (nice_increasing lo hi g Ng t u pg q It Iu Hpg Hu) Hlt).
Qed.

(** ** Explicit quantiles *)

Lemma ftc_left lo hi (G g : R -> R) t c p : Ends (inside lo hi) (from lo) (upto hi) -> inside lo hi t ->
  (forall x, inside lo hi x -> is_derive G x (g x)) -> cont_on g (inside lo hi) -> filterlim G (from lo) (locally c) -> G t - c = p ->
  at_most lo g t p.
Proof.
  intros E It HG Hc Hl <-. apply (is_RInt_gen_FTC _ _ _ (ends_left _ _ _ E t It) G).
  - intros x [Hx _]. auto.
  - intros x [Hx _]. auto.
  - exact Hl.
  - intros Q HQ. exact (locally_singleton _ _ HQ).
Qed.
Lemma at_most_ext lo hi f g t p : Ends (inside lo hi) (from lo) (upto hi) -> inside lo hi t ->
  (forall x, inside lo hi x -> g x = f x) -> at_most lo g t p -> at_most lo f t p.
Proof. intros E It H. apply (is_RInt_gen_ext_on _ _ _ (ends_left _ _ _ E t It)). intros x [Hx _]. auto. Qed.

Lemma ln_neg q : 0 < q < 1 -> ln (1 - q) < 0.
Proof. intros H. rewrite <- ln_1. apply ln_increasing; lra. Qed.
Ltac derc := apply (ex_derive_continuous (V:=R_NormedModule)); unfold Rpower; auto_derive; repeat split; auto; try lra.

Lemma exponential_quantile s q : 0 < s -> 0 < q < 1 -> is_quantile 0 p_infty (pdf (S_expon_scale s)) q (- s * ln (1 - q)).
Proof.
  intros Hs Hq. pose proof (ln_neg q Hq) as L. assert (Ht : 0 < - s * ln (1 - q)) by nra.
  split. split; cbn; auto.
  apply (at_most_ext 0 p_infty _ (fun x => exp (- (x / s)) / s)). apply inside_pos. split; cbn; auto.
  { intros x [Hx _]. cbn in Hx. now rewrite expon_pdf by lra. }
  apply (ftc_left 0 p_infty (fun x => - exp (- (x / s))) _ _ (- exp (- (0 / s)))). apply inside_pos. split; cbn; auto.
  - intros x _. auto_derive. auto. unfold Rdiv. ring.
  - intros x _. derc.
  - apply (filterlim_right_cont (fun x => - exp (- (x / s)))). derc.
  - replace (- (- s * ln (1 - q) / s)) with (ln (1 - q)) by (field; lra). rewrite exp_ln by lra.
    replace (- (0 / s)) with 0 by (field; lra). rewrite exp_0. ring.
Qed.
Lemma uniform_quantile (l s q : R) : 0 < s -> 0 < q < 1 -> is_quantile l (l + s) (pdf (S_uniform l s)) q (l + q * s).
Proof.
  intros Hs Hq. assert (I : inside l (l + s) (l + q * s)) by (split; cbn; nra).
  split. exact I. apply (at_most_ext l (l + s) _ (fun x => / s)). apply inside_open; lra. exact I.
  { intros x [Hx Hx']. cbn in Hx, Hx'. now rewrite uniform_pdf by lra. }
  apply (ftc_left l (l + s) (fun x => x / s) _ _ (l / s)). apply inside_open; lra. exact I.
  - intros x _. auto_derive. auto. field. lra.
  - intros x _. apply continuous_const.
  - apply (filterlim_right_cont (fun x => x / s)). derc.
  - field. lra.
Qed.
Lemma beta_quantile q : 0 < q < 1 -> is_quantile 0 1 (pdf (S_beta 1 1)) q q.
Proof.
  intros Hq. assert (I : inside 0 1 q) by (split; cbn; lra).
  split. exact I. apply (at_most_ext 0 1 _ (fun x => 1)). apply inside_open; lra. exact I.
  { intros x [Hx Hx']. cbn in Hx, Hx'. symmetry. exact (Beta_uninformative_uniform x (conj Hx Hx')). }
  apply (ftc_left 0 1 (fun x => x) _ _ 0). apply inside_open; lra. exact I.
  - intros x _. auto_derive. auto. auto.
  - intros x _. apply continuous_const.
  - apply (filterlim_right_cont (fun x => x)). derc.
  - field.
Qed.

Lemma Rpower_inv_exp y a : 0 < y -> a <> 0 -> Rpower (Rpower y (- (1) / a)) (- a) = y.
Proof. intros Hy Ha. rewrite Rpower_mult. replace (- (1) / a * - a) with 1 by (field; auto). now apply Rpower_1. Qed.
Lemma Rpower_gt_1 q a : 0 < q < 1 -> 0 < a -> 1 < Rpower (1 - q) (- (1) / a).
Proof.
  intros Hq Ha. unfold Rpower. apply Rle_lt_trans with (exp 0). right. symmetry. exact exp_0. apply exp_increasing. pose proof (ln_neg q Hq).
  replace (- (1) / a * ln (1 - q)) with (- ln (1 - q) / a) by (field; lra). apply Rdiv_lt_0_compat; lra.
Qed.
Lemma pareto_quantile (b s q : R) : 0 < b -> 0 < s -> 0 < q < 1 ->
  is_quantile s p_infty (pdf (S_pareto_scale b s)) q (s * Rpower (1 - q) (- (1) / b)).
Proof.
  intros Hb Hs Hq. pose proof (Rpower_gt_1 q b Hq Hb) as G. assert (I : inside s p_infty (s * Rpower (1 - q) (- (1) / b))) by (split; cbn; auto; nra).
  split. exact I. apply (at_most_ext s p_infty _ (fun x => b * Rpower s b * Rpower x (- b - 1))). apply inside_above. exact I.
  { intros x [Hx _]. cbn in Hx. rewrite pareto_pdf by lra. replace (- b - 1) with (- (b + 1)) by ring. now rewrite Rpower_Ropp. }
  apply (ftc_left s p_infty (fun x => - Rpower s b * Rpower x (- b)) _ _ (- Rpower s b * Rpower s (- b))). apply inside_above. exact I.
  - intros x [Hx _]. cbn in Hx. evar_last. apply (is_derive_scal (fun t => Rpower t (- b)) x (- Rpower s b)). apply is_derive_Rpower; lra.
    simpl. ring.
  - intros x [Hx _]. cbn in Hx. apply (continuous_scal_r (b * Rpower s b) (fun x => Rpower x (- b - 1))). apply continuous_Rpower. lra.
  - apply (filterlim_right_cont (fun x => - Rpower s b * Rpower x (- b))).
    apply (continuous_scal_r (- Rpower s b) (fun x => Rpower x (- b))). now apply continuous_Rpower.
  - rewrite Rpower_mult_base by (auto; lra). rewrite Rpower_inv_exp by lra. rewrite (Rpower_Ropp s). field. apply Rgt_not_eq, Rpower_pos.
Qed.
Lemma lomax_quantile c s q : 0 < c -> 0 < s -> 0 < q < 1 ->
  is_quantile 0 p_infty (pdf (S_lomax_scale c s)) q (s * (Rpower (1 - q) (- (1) / c) - 1)).
Proof.
  intros Hc Hs Hq. pose proof (Rpower_gt_1 q c Hq Hc) as G.
  assert (I : inside 0 p_infty (s * (Rpower (1 - q) (- (1) / c) - 1))) by (split; cbn; auto; apply Rmult_lt_0_compat; lra).
  split. exact I. apply (at_most_ext 0 p_infty _ (fun x => c * Rpower s c * Rpower (s + x) (- c - 1))). apply inside_pos. exact I.
  { intros x [Hx _]. cbn in Hx. rewrite lomax_pdf by lra. replace (- c - 1) with (- (c + 1)) by ring. now rewrite Rpower_Ropp. }
  apply (ftc_left 0 p_infty (fun x => - Rpower s c * Rpower (s + x) (- c)) _ _ (- Rpower s c * Rpower (s + 0) (- c))). apply inside_pos. exact I.
  - intros x [Hx _]. cbn in Hx. evar_last. apply (is_derive_scal (fun t => Rpower (s + t) (- c)) x (- Rpower s c)).
    apply (is_derive_comp (fun t => Rpower t (- c)) (fun t => s + t)). apply is_derive_Rpower; lra. auto_derive. auto. reflexivity.
    simpl. unfold scal; simpl; unfold mult; simpl. ring.
  - intros x [Hx _]. cbn in Hx. apply (continuous_scal_r (c * Rpower s c) (fun x => Rpower (s + x) (- c - 1))). derc.
  - apply (filterlim_right_cont (fun x => - Rpower s c * Rpower (s + x) (- c))).
    apply (continuous_scal_r (- Rpower s c) (fun x => Rpower (s + x) (- c))). derc.
  - replace (s + s * (Rpower (1 - q) (- (1) / c) - 1)) with (s * Rpower (1 - q) (- (1) / c)) by ring.
    rewrite Rpower_mult_base by (auto; lra). rewrite Rpower_inv_exp by lra. rewrite Rplus_0_r, (Rpower_Ropp s). field. apply Rgt_not_eq, Rpower_pos.
Qed.
Lemma weibull_quantile c s q : 0 < c -> 0 < s -> 0 < q < 1 ->
  is_quantile 0 p_infty (pdf (S_weibull_min_scale c s)) q (s * Rpower (- ln (1 - q)) (1 / c)).
Proof.
  intros Hc Hs Hq. pose proof (ln_neg q Hq) as L. pose proof (Rpower_pos (- ln (1 - q)) (1 / c)) as G. pose proof (Rpower_pos s c) as Gs.
  assert (I : inside 0 p_infty (s * Rpower (- ln (1 - q)) (1 / c))) by (split; cbn; auto; apply Rmult_lt_0_compat; lra).
  assert (D : forall x, 0 < x -> is_derive (fun t => - exp (- (Rpower t c / Rpower s c))) x (c * Rpower x (c - 1) / Rpower s c * exp (- (Rpower x c / Rpower s c)))).
  { intros x Hx. evar_last. apply (is_derive_comp (fun y => - exp (- (y / Rpower s c))) (fun t => Rpower t c)).
    auto_derive. auto. reflexivity. apply is_derive_Rpower; auto. unfold scal; simpl; unfold mult; simpl. unfold Rdiv. ring. }
  split. exact I. apply (at_most_ext 0 p_infty _ (fun x => c * Rpower x (c - 1) / Rpower s c * exp (- (Rpower x c / Rpower s c)))). apply inside_pos. exact I.
  { intros x [Hx _]. cbn in Hx. now rewrite weibull_pdf by lra. }
  apply (ftc_left 0 p_infty (fun t => - exp (- (Rpower t c / Rpower s c))) _ _ (- exp (- (0 / Rpower s c)))). apply inside_pos. exact I.
  - intros x [Hx _]. now apply D.
  - intros x [Hx _]. cbn in Hx. derc; apply Rgt_not_eq, exp_pos.
  - apply (filterlim_comp _ _ _ (fun t => Rpower t c) (fun y => - exp (- (y / Rpower s c))) _ (locally 0)). now apply filterlim_Rpower_0.
    apply (ex_derive_continuous (V:=R_NormedModule) (fun y => - exp (- (y / Rpower s c)))). auto_derive. auto.
  - rewrite Rpower_mult_base by (auto; lra). rewrite Rpower_mult. replace (1 / c * c) with 1 by (field; lra). rewrite Rpower_1 by lra.
    replace (Rpower s c * - ln (1 - q) / Rpower s c) with (- ln (1 - q)) by (field; lra). rewrite Ropp_involutive, exp_ln by lra.
    replace (- (0 / Rpower s c)) with 0 by (field; lra). rewrite exp_0. ring.
Qed.

(** ** Location and scale *)

Lemma locscale_at_most g m s z q : 0 < s -> (forall x, continuous g x) -> at_most m_infty g z q ->
  at_most m_infty (locscale g m s) (m + s * z) q.
Proof.
  intros Hs Hc H. unfold at_most, from in *.
  assert (I : (fun _ : R => True) (m + s * z)) by exact Logic.I.
  apply (is_RInt_gen_ext_on _ _ _ (ends_left _ _ _ ends_line _ I) (fun x => / s * g (/ s * (x - m)))).
  { intros x _. unfold locscale. replace ((x - m) / s) with (/ s * (x - m)) by (unfold Rdiv; ring). unfold Rdiv. ring. }
  apply (is_RInt_gen_subst _ _ _ (ends_left _ _ _ ends_line _ I) Fminf (at_point z) (fun _ => True) g (fun x => / s * (x - m)) (fun _ => / s)).
  - typeclasses eauto.
  - apply at_point_filter.
  - auto.
  - intros x _. auto_derive. auto. ring.
  - intros x _. apply continuous_const.
  - intros x _. apply Hc.
  - apply filterlim_affine_minf. now apply Rinv_0_lt_compat.
  - intros P HP. unfold filtermap, at_point in *. replace (/ s * (m + s * z - m)) with z by (field; lra). exact HP.
  - exact H.
Qed.
Lemma even_at_most g z q : (forall x, continuous g x) -> (forall x, g (- x) = g x) -> at_least p_infty g z q -> at_most m_infty g (- z) q.
Proof.
  intros Hc Hg H. unfold at_most, at_least, from, upto in *.
  assert (I : (fun _ : R => True) (- z)) by exact Logic.I.
  apply (is_RInt_gen_ext_on _ _ _ (ends_left _ _ _ ends_line _ I) (fun x => - (1) * (- g (- x)))).
  { intros x _. rewrite Hg. ring. }
  apply (is_RInt_gen_subst _ _ _ (ends_left _ _ _ ends_line _ I) Finf (at_point z) (fun _ => True) (fun x => - g x) Ropp (fun _ => - (1))).
  - typeclasses eauto.
  - apply at_point_filter.
  - auto.
  - intros x _. auto_derive. auto. ring.
  - intros x _. apply continuous_const.
  - intros x _. apply (continuous_opp g). apply Hc.
  - apply filterlim_opp_minf.
  - intros P HP. unfold filtermap, at_point in *. now rewrite Ropp_involutive.
  - replace q with (- - q) by ring. apply (is_RInt_gen_opp (V:=R_NormedModule) (Fa:=Finf) (Fb:=at_point z) g (- q)).
    apply (is_RInt_gen_swap (V:=R_NormedModule) (Fa:=Finf) (Fb:=at_point z) g q). exact H.
Qed.
Lemma symmetric_interval g level : nice m_infty p_infty g -> (forall x, g (- x) = g x) -> 0 < level < 1 ->
  exists z, 0 < z /\ forall m s, 0 < s -> nice m_infty p_infty (locscale g m s) ->
  credible m_infty p_infty (locscale g m s) level (m - z * s, m + z * s).
Proof.
  intros N Hg Hl. destruct (nice_credible _ _ g N level Hl) as ((a & z) & Hc & _).
  assert (C : forall x, continuous g x) by (intros x; apply (n_cont _ _ _ N); split; exact Logic.I).
  pose proof Hc as (Ia & Iz & Haz & Ha & _ & Hz). pose proof (even_at_most g z _ C Hg Hz) as Hz'.
  pose proof (proj2 (credible_quantiles _ _ g N level a z Hl)) as _.
  apply (credible_quantiles _ _ g N level a z Hl) in Hc as [_ [_ Hzq]].
  assert (Inz : inside m_infty p_infty (- z)) by (split; exact Logic.I).
  assert (- z < z) by (apply (nice_increasing _ _ g N (- z) z _ _ Inz Iz Hz' Hzq); lra).
  exists z. split. lra. intros m s Hs Nm. apply credible_quantiles; auto. split; (split; [split; exact Logic.I|]).
  - replace (m - z * s) with (m + s * - z) by ring. now apply locscale_at_most.
  - replace (m + z * s) with (m + s * z) by ring. now apply locscale_at_most.
Qed.
Lemma locscale_std g x : locscale g 0 1 x = g x.
Proof. unfold locscale. replace ((x - 0) / 1) with x by field. field. Qed.
Lemma nice_ext lo hi f g : (forall x, f x = g x) -> nice lo hi f -> nice lo hi g.
Proof.
  intros H [E C P T]. split; auto.
  - intros x Hx. apply (continuous_ext f); auto.
  - intros x Hx. rewrite <- H. auto.
  - apply (is_RInt_gen_ext_on _ _ _ E f); auto.
Qed.
Lemma normal_interval level : 0 < level < 1 -> exists z, 0 < z /\ forall d : Normal R, 0 < Normal_sigma d ->
  credible m_infty p_infty (pdf (Normal_dist d)) level (Normal_mu d - z * Normal_sigma d, Normal_mu d + z * Normal_sigma d).
Proof.
  intros Hl. destruct (symmetric_interval std_norm level) as (z & Hz & H); auto.
  - apply (nice_ext _ _ (pdf (Normal_dist (mkNormal 0 1)))). intros x. apply locscale_std. apply valid_nice. apply V_Normal. exact Rlt_0_1.
  - intros x. unfold std_norm. now replace ((- x) ^ 2) with (x ^ 2) by ring.
  - exists z. split; auto. intros [m s] Hs. cbn in Hs. apply (H m s Hs). exact (valid_nice _ _ _ (V_Normal (mkNormal m s) Hs)).
Qed.
Lemma student_t_interval nu level : 0 < nu -> 0 < level < 1 -> exists z, 0 < z /\ forall d : StudentT R, StudentT_nu d = nu -> 0 < StudentT_sigma d ->
  credible m_infty p_infty (pdf (StudentT_dist d)) level (StudentT_mu d - z * StudentT_sigma d, StudentT_mu d + z * StudentT_sigma d).
Proof.
  intros Hn Hl. destruct (symmetric_interval (std_t nu) level) as (z & Hz & H); auto.
  - apply (nice_ext _ _ (pdf (StudentT_dist (mkStudentT 0 1 nu)))). intros x. apply locscale_std. apply valid_nice. apply V_StudentT. exact Hn. exact Rlt_0_1.
  - intros x. unfold std_t. now replace ((- x) ^ 2) with (x ^ 2) by ring.
  - exists z. split; auto. intros [m s n] E Hs. cbn in E, Hs. subst n. apply (H m s Hs). exact (valid_nice _ _ _ (V_StudentT (mkStudentT m s nu) Hn Hs)).
Qed.
Lemma normal_interval_narrows level x n var (prior : Normal R) a b a' b' : 0 < level < 1 -> 0 < Normal_sigma prior -> 0 < var -> 0 < n ->
  credible m_infty p_infty (pdf (Normal_dist prior)) level (a, b) ->
  credible m_infty p_infty (pdf (Normal_dist (normal_known_variance x n var prior))) level (a', b') -> b' - a' < b - a.
Proof.
  intros Hl Hs Hv Hn H H'. destruct (normal_interval level Hl) as (z & Hz & HI).
  destruct (normal_known_variance_shrinks prior x n var Hs Hv Hn) as [P1 P2]. set (post := normal_known_variance x n var prior) in *.
  destruct (nice_credible _ _ _ (valid_nice _ _ _ (V_Normal prior Hs)) level Hl) as (ab & _ & U).
  destruct (nice_credible _ _ _ (valid_nice _ _ _ (V_Normal post P1)) level Hl) as (ab' & _ & U').
  pose proof (U _ (HI prior Hs)) as E1. rewrite (U _ H) in E1. pose proof (U' _ (HI post P1)) as E2. rewrite (U' _ H') in E2.
  assert (G : z * Normal_sigma post < z * Normal_sigma prior) by now apply Rmult_lt_compat_l.
  assert (D : forall m k : R, fst (m - k, m + k) + 2 * k = snd (m - k, m + k)) by (intros; simpl; ring).
  pose proof (D (Normal_mu prior) (z * Normal_sigma prior)) as D1. pose proof (D (Normal_mu post) (z * Normal_sigma post)) as D2.
  rewrite <- E1 in D1. rewrite <- E2 in D2. cbn [fst snd] in D1, D2. clearbody post. lra.
Qed.

(** ** Evidence moves every quantile *)

Lemma binomial_quantiles n1 x1 n2 x2 (prior : Beta R) q t u : 0 < Beta_alpha prior -> 0 < Beta_beta prior ->
  0 <= x1 <= x2 -> 0 <= n2 - x2 <= n1 - x1 -> x1 < x2 \/ n2 - x2 < n1 - x1 ->
  is_quantile 0 1 (pdf (Beta_dist (binomial_beta n1 x1 prior))) q t -> is_quantile 0 1 (pdf (Beta_dist (binomial_beta n2 x2 prior))) q u -> t < u.
Proof.
  intros Ha Hb H1 H2 H3. apply (quantiles_up 0 1 _ _ unit_interval).
  - apply valid_nice, V_Beta; destruct prior; cbn in *; lra.
  - apply valid_nice, V_Beta; destruct prior; cbn in *; lra.
  - intros x Hx. exact Hx.
  - now apply binomial_up.
Qed.
Lemma poisson_quantiles x1 n1 x2 n2 (prior : Gamma R) q t u : 0 < Gamma_alpha prior -> 0 < Gamma_beta prior ->
  0 <= x1 <= x2 -> 0 <= n2 <= n1 -> x1 < x2 \/ n2 < n1 ->
  is_quantile 0 p_infty (pdf (Gamma_dist (poisson_gamma x1 n1 prior))) q t -> is_quantile 0 p_infty (pdf (Gamma_dist (poisson_gamma x2 n2 prior))) q u -> t < u.
Proof.
  intros Ha Hb H1 H2 H3. apply (quantiles_up 0 p_infty _ _ positive).
  - apply valid_nice, V_Gamma; destruct prior; cbn in *; lra.
  - apply valid_nice, V_Gamma; destruct prior; cbn in *; lra.
  - intros x [Hx _]. exact Hx.
  - now apply poisson_up.
Qed.

Lemma quantile_formulas q : 0 < q < 1 ->
  is_quantile 0 1 (pdf (Beta_dist (mkBeta 1 1))) q q /\
  (forall s, 0 < s -> is_quantile 0 p_infty (pdf (Exponential_dist (mkExponential s))) q (- s * ln (1 - q))) /\
  (forall l w : R, 0 < w -> is_quantile l (l + w) (pdf (Uniform_dist (mkUniform l w))) q (l + q * w)) /\
  (forall x_m a : R, 0 < x_m -> 0 < a -> is_quantile x_m p_infty (pdf (Pareto_dist (mkPareto x_m a))) q (x_m * Rpower (1 - q) (- (1) / a))) /\
  (forall a s, 0 < a -> 0 < s -> is_quantile 0 p_infty (pdf (Lomax_dist (mkLomax a s))) q (s * (Rpower (1 - q) (- (1) / a) - 1))) /\
  (forall b th, 0 < b -> 0 < th -> is_quantile 0 p_infty (pdf (Weibull_dist (mkWeibull b th))) q (Rpower (- th * ln (1 - q)) (1 / b))).
Proof.
  intros Hq. refine (conj (beta_quantile q Hq) (conj (fun s Hs => exponential_quantile s q Hs Hq) (conj (fun l w Hw => uniform_quantile l w q Hw Hq)
    (conj (fun x_m a Hx Ha => pareto_quantile a x_m q Ha Hx Hq) (conj (fun a s Ha Hs => lomax_quantile a s q Ha Hs Hq) _))))).
  intros b th Hb Hth. pose proof (ln_neg q Hq) as L. replace (- th * ln (1 - q)) with (th * - ln (1 - q)) by ring. rewrite Rpower_mult_base by lra.
  exact (weibull_quantile b (Rpower th (1 / b)) q Hb (Rpower_pos _ _) Hq).
Qed.
