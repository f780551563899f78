(** C101: the operator [*] and scaled variables. *)

From Coq Require Import Reals Lra Psatz.
From Coquelicot Require Import Coquelicot.
From Verif Require Import Model.Num Model.Py Model.Dists Model.ScipyDist Spec.Special Spec.Densities Spec.Moments Spec.Scaling.
From Verif Require Import Analysis.Improper Analysis.RealAux Analysis.GammaBeta Analysis.GammaFacts Proofs.Pdfs Proofs.Conj Proofs.Predictive Proofs.Joint Proofs.Moments Proofs.Convert.
Open Scope R_scope.

Lemma scaled_density (D : R -> Prop) f g k x a : 0 < k ->
  locally x D -> D a -> a < x -> continuous f x -> continuous g (k * x) ->
  scaled_law D f k g -> f x = k * g (k * x).
Proof.
  intros Hk HD Da Hax Cf Cg S.
  assert (L : locally x (fun b => D b /\ a < b)).
  { apply filter_and; auto. apply (open_gt a). exact Hax. }
  assert (Df : is_derive (fun b => RInt f a b) x (f x)).
  { apply is_derive_RInt with a; auto. revert L. apply filter_imp. intros b [Db Hb].
    destruct (S a b Da Db Hb) as (p & Hp & _). apply (RInt_correct (V := R_CompleteNormedModule)). now exists p. }
  assert (Dg : is_derive (fun c => RInt g (k * a) c) (k * x) (g (k * x))).
  { apply is_derive_RInt with (k * a); auto.
    destruct L as [e L]. assert (He : 0 < k * e) by (apply Rmult_lt_0_compat; auto; apply cond_pos).
    exists (mkposreal _ He). intros c Hc. specialize (L (c / k)).
    assert (B : ball x e (c / k)).
    { unfold ball in *; simpl in *; unfold AbsRing_ball, abs, minus, plus, opp in *; simpl in *.
      replace (c / k + - x) with ((c + - (k * x)) / k) by (field; lra).
      rewrite Rabs_div by lra. rewrite (Rabs_pos_eq k) by lra. apply Rlt_div_l; lra. }
    destruct (L B) as [Dc Hc']. destruct (S a (c / k) Da Dc Hc') as (p & _ & Hp).
    apply (RInt_correct (V := R_CompleteNormedModule)). exists p. replace c with (k * (c / k)) at 1 by (field; lra). exact Hp. }
  assert (Dk : is_derive (fun b => RInt g (k * a) (k * b)) x (k * g (k * x))).
  { apply (is_derive_comp (fun c => RInt g (k * a) c) (fun b => k * b)); auto.
    auto_derive; auto; ring. }
  assert (E : locally x (fun b => RInt f a b = RInt g (k * a) (k * b))).
  { revert L. apply filter_imp. intros b [Db Hb]. destruct (S a b Da Db Hb) as (p & Hp & Hp').
    rewrite (is_RInt_unique (V := R_CompleteNormedModule) _ _ _ _ Hp). symmetry.
    exact (is_RInt_unique (V := R_CompleteNormedModule) _ _ _ _ Hp'). }
  apply (is_derive_ext_loc _ _ _ _ E) in Df.
  apply is_derive_unique in Df. apply is_derive_unique in Dk. exact (eq_trans (eq_sym Df) Dk).
Qed.

(** ** Normal *)
Definition gauss_pdf m s x := / (s * sqrt (2 * PI)) * exp (- (x - m) ^ 2 / (2 * s ^ 2)).
Lemma normal_pdf_eq m s x : 0 < s -> pdf (Normal_dist (mkNormal m s)) x = gauss_pdf m s x.
Proof. intros Hs. now rewrite normal_density. Qed.
Lemma gauss_pdf_cont m s x : 0 < s -> continuous (gauss_pdf m s) x.
Proof. intros Hs. apply (ex_derive_continuous (gauss_pdf m s)). unfold gauss_pdf. auto_derive. nra. Qed.
Lemma normal_pdf_cont m s x : 0 < s -> continuous (pdf (Normal_dist (mkNormal m s))) x.
Proof.
  intros Hs. apply (continuous_ext (gauss_pdf m s)). intros y. symmetry. now apply normal_pdf_eq. now apply gauss_pdf_cont.
Qed.

Lemma sqrt_2PI_pos : 0 < sqrt (2 * PI).
Proof. apply sqrt_lt_R0. pose proof PI_RGT_0. lra. Qed.

Lemma normal_true_scaling mu sigma k : 0 < sigma -> 0 < k ->
  scaled_law (fun _ => True) (pdf (Normal_dist (mkNormal mu sigma))) k (pdf (Normal_dist (mkNormal (k * mu) (k * sigma)))).
Proof.
  intros Hs Hk a b _ _ Hab. exists (RInt (pdf (Normal_dist (mkNormal mu sigma))) a b). split.
  - apply (RInt_correct (V := R_CompleteNormedModule)); apply (ex_RInt_continuous (V := R_CompleteNormedModule)). intros z _. now apply normal_pdf_cont.
  - set (f := pdf (Normal_dist (mkNormal mu sigma))). set (g := pdf (Normal_dist (mkNormal (k * mu) (k * sigma)))).
    assert (Hks : 0 < k * sigma) by now apply Rmult_lt_0_compat.
    assert (E : RInt g (k * a) (k * b) = RInt f a b).
    { assert (Eg : ex_RInt g (k * a + 0) (k * b + 0)).
      { apply (ex_RInt_continuous (V := R_CompleteNormedModule)). intros z _. now apply normal_pdf_cont. }
      pose proof (RInt_comp_lin g k 0 a b Eg) as H. rewrite !Rplus_0_r in H. rewrite <- H.
      apply RInt_ext. intros x _. unfold f, g. rewrite !normal_pdf_eq by auto. unfold gauss_pdf.
      rewrite Rplus_0_r. replace (- (k * x - k * mu) ^ 2 / (2 * (k * sigma) ^ 2)) with (- (x - mu) ^ 2 / (2 * sigma ^ 2)) by (field; lra).
      unfold scal; simpl; unfold mult; simpl. pose proof sqrt_2PI_pos. field. repeat split; lra. }
    rewrite <- E. apply (RInt_correct (V := R_CompleteNormedModule)); apply (ex_RInt_continuous (V := R_CompleteNormedModule)). intros z _. now apply normal_pdf_cont.
Qed.

Lemma normal_mul_eq (d : Normal R) k : 0 < Normal_sigma d -> 0 < k ->
  Normal_mul d k = mkNormal (Normal_mu d * k) (Normal_sigma d * sqrt k).
Proof.
  intros Hs Hk. unfold Normal_mul. cbv [nsqrt nsq nmul NumR]. f_equal.
  rewrite sqrt_mult by nra. f_equal. rewrite sqrt_pow2; lra.
Qed.

Lemma normal_mul_scaling (d : Normal R) k : 0 < Normal_sigma d -> 0 < k ->
  (scaled_law (fun _ => True) (pdf (Normal_dist d)) k (pdf (Normal_dist (Normal_mul d k))) <-> k = 1).
Proof.
  intros Hs Hk. rewrite normal_mul_eq by auto. destruct d as [mu sigma]. cbn [Normal_mu Normal_sigma] in *.
  assert (Hq : 0 < sqrt k) by now apply sqrt_lt_R0.
  assert (Hsq : 0 < sigma * sqrt k) by now apply Rmult_lt_0_compat.
  split.
  - intros S.
    pose proof (scaled_density _ _ _ k mu (mu - 1) Hk (filter_true) I ltac:(lra)
      (normal_pdf_cont mu sigma mu Hs) (normal_pdf_cont _ _ _ Hsq) S) as E.
    rewrite !normal_pdf_eq in E by auto. unfold gauss_pdf in E.
    replace (- (mu - mu) ^ 2 / (2 * sigma ^ 2)) with 0 in E by (field; lra).
    replace (- (k * mu - mu * k) ^ 2 / (2 * (sigma * sqrt k) ^ 2)) with 0 in E by (field; lra).
    rewrite exp_0 in E. pose proof sqrt_2PI_pos.
    assert (E' : sqrt k = k).
    { apply (Rmult_eq_compat_l (sigma * sqrt (2 * PI) * sqrt k)) in E.
      replace (sigma * sqrt (2 * PI) * sqrt k * (/ (sigma * sqrt (2 * PI)) * 1)) with (sqrt k) in E by (field; lra).
      rewrite E. field. lra. }
    pose proof (sqrt_sqrt k ltac:(lra)). nra.
  - intros ->. rewrite sqrt_1, !Rmult_1_r.
    pose proof (normal_true_scaling mu sigma 1 Hs Rlt_0_1) as S. rewrite !Rmult_1_l in S. exact S.
Qed.

Lemma normal_mul_moments (d : Normal R) k : 0 < Normal_sigma d -> 0 < k ->
  is_mean Fminf Finf (pdf (Normal_dist (Normal_mul d k))) (k * Normal_mu d) /\
  is_variance Fminf Finf (pdf (Normal_dist (Normal_mul d k))) (k * Normal_sigma d ^ 2).
Proof.
  intros Hs Hk. rewrite normal_mul_eq by auto. cbv [Normal_dist Normal_mu Normal_sigma].
  assert (Hsq : 0 < Normal_sigma d * sqrt k) by (apply Rmult_lt_0_compat; auto; now apply sqrt_lt_R0).
  destruct d as [mu sigma]. cbn [Normal_mu Normal_sigma] in *. split.
  - rewrite (Rmult_comm k). now apply norm_mean.
  - pose proof (norm_variance (mu * k) _ Hsq) as H. rewrite Rpow_mult_distr, pow2_sqrt in H by lra. rewrite (Rmult_comm k (sigma ^ 2)). exact H.
Qed.

Lemma scaled_normal_moments mu sigma k : 0 < sigma -> 0 < k ->
  is_mean Fminf Finf (pdf (Normal_dist (mkNormal (k * mu) (k * sigma)))) (k * mu) /\
  is_variance Fminf Finf (pdf (Normal_dist (mkNormal (k * mu) (k * sigma)))) (k ^ 2 * sigma ^ 2).
Proof.
  intros Hs Hk. assert (H : 0 < k * sigma) by now apply Rmult_lt_0_compat. cbv [Normal_dist Normal_mu Normal_sigma]. split.
  - now apply norm_mean.
  - rewrite <- Rpow_mult_distr. now apply norm_variance.
Qed.

(** ** Gamma *)
Definition gamma_pdf a b x := Rpower b a / Gamma_fun a * Rpower x (a - 1) * exp (- (b * x)).
Lemma gamma_pdf_cont a b x : 0 < b -> 0 < x -> continuous (pdf (Gamma_dist (mkGamma a b))) x.
Proof.
  intros Hb Hx. apply (continuous_ext_loc _ (gamma_pdf a b)).
  - exists (mkposreal x Hx). intros y Hy. unfold ball in Hy; simpl in Hy; unfold AbsRing_ball, abs, minus, plus, opp in Hy; simpl in Hy.
    assert (0 < y) by (destruct (Rle_dec y 0); [rewrite Rabs_left in Hy; lra|lra]).
    symmetry. now rewrite gamma_density.
  - apply (ex_derive_continuous (gamma_pdf a b)). unfold gamma_pdf, Rpower. auto_derive. auto.
Qed.

Lemma gamma_mul_scaling (d : Gamma R) k : 0 < Gamma_alpha d -> 0 < Gamma_beta d -> 0 < k ->
  (scaled_law (fun x => 0 < x) (pdf (Gamma_dist d)) k (pdf (Gamma_dist (Gamma_mul d k))) <-> k = 1).
Proof.
  intros Ha Hb Hk. destruct d as [a b]. unfold Gamma_mul. cbn [Gamma_alpha Gamma_beta] in *. cbv [nmul NumR].
  assert (Hak : 0 < a * k) by now apply Rmult_lt_0_compat.
  split.
  - intros S.
    assert (E : forall x, 0 < x -> gamma_pdf a b x = k * gamma_pdf (a * k) b (k * x)).
    { intros x Hx. assert (Hkx : 0 < k * x) by now apply Rmult_lt_0_compat.
      pose proof (scaled_density (fun x => 0 < x) _ _ k x (x / 2) Hk (open_gt 0 x Hx) ltac:(lra) ltac:(lra)
        (gamma_pdf_cont a b x Hb Hx) (gamma_pdf_cont (a * k) b (k * x) Hb Hkx) S) as E.
      rewrite !gamma_density in E by auto. exact E. }
    (* logarithms *)
    pose proof (Gamma_fun_pos a Ha) as Ga. pose proof (Gamma_fun_pos (a * k) Hak) as Gk.
    assert (P : forall u v, 0 < Rpower u v) by (intros; apply exp_pos).
    assert (Lg : forall a' x, 0 < a' -> 0 < x -> ln (gamma_pdf a' b x) = a' * ln b - ln (Gamma_fun a') + (a' - 1) * ln x - b * x).
    { intros a' x Ha' Hx. pose proof (Gamma_fun_pos a' Ha'). unfold gamma_pdf.
      rewrite !ln_mult; try apply P; try apply exp_pos; try apply Rdiv_lt_0_compat; auto; try apply Rmult_lt_0_compat; auto; try apply Rdiv_lt_0_compat; auto.
      rewrite ln_div; auto. unfold Rpower. rewrite !ln_exp. ring. }
    assert (Pg : forall a' x, 0 < a' -> 0 < gamma_pdf a' b x).
    { intros a' x Ha'. pose proof (Gamma_fun_pos a' Ha'). unfold gamma_pdf.
      apply Rmult_lt_0_compat; [apply Rmult_lt_0_compat; [apply Rdiv_lt_0_compat; auto|apply P]|apply exp_pos]. }
    assert (C : forall x, 0 < x -> (k - 1) * (a * ln x - b * x) =
       a * ln b - ln (Gamma_fun a) - ln k - (a * k * ln b - ln (Gamma_fun (a * k))) - (a * k - 1) * ln k).
    { intros x Hx. assert (Hkx : 0 < k * x) by now apply Rmult_lt_0_compat. pose proof (f_equal ln (E x Hx)) as H.
      rewrite ln_mult in H by auto. rewrite !Lg in H by auto. rewrite ln_mult in H by auto.
      rewrite !(Rmult_plus_distr_l) in H. lra. }
    pose proof (C 1 Rlt_0_1) as C1. pose proof (C 2 ltac:(lra)) as C2. pose proof (C 4 ltac:(lra)) as C4.
    rewrite ln_1 in C1. replace 4 with (2 * 2) in C4 by ring. rewrite ln_mult in C4 by lra.
    assert (L2 : 0 < ln 2) by (rewrite <- ln_1; apply ln_increasing; lra).
    assert (K1 : (k - 1) * (a * ln 2 - b) = 0) by lra.
    assert (K2 : (k - 1) * (2 * (a * ln 2) - 3 * b) = 0) by lra.
    assert ((k - 1) * b = 0) by lra. apply Rmult_integral in H. lra.
  - intros ->. rewrite Rmult_1_r. intros x y Hx Hy Hxy. exists (RInt (pdf (Gamma_dist (mkGamma a b))) x y).
    assert (I : is_RInt (pdf (Gamma_dist (mkGamma a b))) x y (RInt (pdf (Gamma_dist (mkGamma a b))) x y)).
    { apply (RInt_correct (V := R_CompleteNormedModule)); apply (ex_RInt_continuous (V := R_CompleteNormedModule)). intros z Hz. apply gamma_pdf_cont; auto.
      rewrite Rmin_left in Hz by lra. lra. }
    rewrite !Rmult_1_l. auto.
Qed.

(** ** The Poisson program *)
Lemma poisson_program rate :
  Poisson_add (mkPoisson rate) (mkPoisson rate) = Poisson_mul (mkPoisson rate) 2 /\
  Poisson_lam (Poisson_add (mkPoisson rate) (mkPoisson rate)) = 2 * rate /\
  Poisson_lam (Poisson_mul (mkPoisson rate) 7) = 7 * rate.
Proof. unfold Poisson_add, Poisson_mul. cbv [nadd nmul NumR Poisson_lam]. repeat split; try ring. f_equal; ring. Qed.
