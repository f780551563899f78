(** Chebyshev's argument: densities whose spread about a point vanishes concentrate there. *)

From Coq Require Import Reals Lra Psatz.
From Coquelicot Require Import Coquelicot.
From Verif Require Import Spec.Limits Analysis.Improper Analysis.GammaFacts.
Open Scope R_scope.

Section On.
Context (I : R -> Prop) (Fa Fb : (R -> Prop) -> Prop) (E : Ends I Fa Fb).

Lemma is_RInt_gen_nonneg (f : R -> R) (l : R) :
  (forall x, I x -> 0 <= f x) -> is_RInt_gen f Fa Fb l -> 0 <= l.
Proof.
  intros Hf H. pose proof (e_Fa _ _ _ E) as PA. pose proof (e_Fb _ _ _ E) as PB.
  destruct (Rle_or_lt 0 l) as [Hl|Hl]; [exact Hl|exfalso].
  destruct (ends_inhabited _ _ _ E) as [c Hc].
  assert (Hp : 0 < - l) by lra.
  pose proof (H _ (locally_ball l (mkposreal _ Hp))) as Q.
  assert (W : filter_prod Fa Fb (fun ab => (I (fst ab) /\ fst ab <= c) /\ (I (snd ab) /\ c <= snd ab))).
  { apply Filter_prod with (fun a => I a /\ a <= c) (fun b => I b /\ c <= b).
    - apply filter_and; [apply (e_inA _ _ _ E)|now apply (e_A _ _ _ E)].
    - apply filter_and; [apply (e_inB _ _ _ E)|now apply (e_B _ _ _ E)].
    - intros a b Ha Hb. now split. }
  unfold filtermapi in Q. pose proof (filter_and (F := filter_prod Fa Fb) _ _ Q W) as Z. apply (@filter_ex _ _ (filter_prod_proper)) in Z.
  destruct Z as ((a & b) & (y & Hy & By) & (Ha & Hac) & (Hb & Hcb)). simpl in *.
  assert (0 <= y).
  { apply (is_RInt_le (fun _ => 0) f a b); [lra| |exact Hy|].
    - pose proof (is_RInt_const (V := R_NormedModule) a b 0) as K. unfold scal in K; simpl in K. unfold mult in K; simpl in K.
      now rewrite Rmult_0_r in K.
    - intros x Hx. apply Hf. apply (e_cvx _ _ _ E a b); auto; lra. }
  unfold ball in By; simpl in By. unfold AbsRing_ball, abs, minus, plus, opp in By; simpl in By.
  apply Rabs_def2 in By. lra.
Qed.

Lemma is_RInt_gen_le_on (f g : R -> R) (k l : R) :
  (forall x, I x -> f x <= g x) -> is_RInt_gen f Fa Fb k -> is_RInt_gen g Fa Fb l -> k <= l.
Proof.
  intros H Hf Hg. pose proof (e_Fa _ _ _ E) as PA. pose proof (e_Fb _ _ _ E) as PB.
  pose proof (is_RInt_gen_minus_R Fa Fb _ _ _ _ Hg Hf) as Q.
  apply is_RInt_gen_nonneg in Q; [lra|]. intros x Hx. specialize (H x Hx). lra.
Qed.

Variable f : nat -> R -> R.
Hypothesis f_pos : forall N t, I t -> 0 <= f N t.
Hypothesis f_one : forall N, is_RInt_gen (f N) Fa Fb 1.

(** [phi] is a reparametrisation whose mean square about [phi0] is [V N]. *)
Variable (phi : R -> R) (phi0 : R) (V : nat -> R).
Hypothesis f_spread : forall N, is_RInt_gen (fun t => (phi t - phi0) ^ 2 * f N t) Fa Fb (V N).
Hypothesis V_lim : is_lim_seq V 0.

Lemma spread_limit (h : R -> R) (h0 : R) (L : nat -> R) :
  (forall eps, 0 < eps -> exists C, 0 <= C /\ forall t, I t -> Rabs (h t - h0) <= eps + C * (phi t - phi0) ^ 2) ->
  (forall N, is_RInt_gen (fun t => h t * f N t) Fa Fb (L N)) -> is_lim_seq L h0.
Proof.
  intros Hh HL. pose proof (e_Fa _ _ _ E) as PA. pose proof (e_Fb _ _ _ E) as PB.
  apply is_lim_seq_spec. intros eps. destruct (Hh (eps / 2)) as (C & HC & HB); [destruct eps; simpl; lra|].
  apply is_lim_seq_spec in V_lim. assert (Hd : 0 < eps / 2 / (C + 1)) by (apply Rdiv_lt_0_compat; destruct eps; simpl; lra).
  destruct (V_lim (mkposreal _ Hd)) as (N0 & HN0). simpl in HN0.
  exists N0. intros N HN. specialize (HN0 N HN). rewrite Rminus_0_r in HN0.
  assert (HV : V N * (C + 1) < eps / 2).
  { apply Rabs_def2 in HN0. destruct HN0 as (HN0 & _). apply (Rmult_lt_compat_r (C + 1)) in HN0; [|lra].
    unfold Rdiv at 1 in HN0. rewrite Rmult_assoc, Rinv_l in HN0 by lra. lra. }
  assert (HV0 : 0 <= V N).
  { apply (is_RInt_gen_nonneg (fun t => (phi t - phi0) ^ 2 * f N t)); [|apply f_spread].
    intros t Ht. apply Rmult_le_pos; [apply pow2_ge_0|now apply f_pos]. }
  pose proof (is_RInt_gen_plus_R Fa Fb _ _ _ _ (is_RInt_gen_mult_l Fa Fb _ (eps / 2) _ (f_one N)) (is_RInt_gen_mult_l Fa Fb _ C _ (f_spread N))) as QU.
  pose proof (is_RInt_gen_minus_R Fa Fb _ _ _ _ (HL N) (is_RInt_gen_mult_l Fa Fb _ h0 _ (f_one N))) as QL.
  assert (U1 : L N - h0 * 1 <= eps / 2 * 1 + C * V N).
  { apply (is_RInt_gen_le_on _ _ _ _) with (2 := QL) (3 := QU). intros t Ht. specialize (HB t Ht). specialize (f_pos N t Ht).
    apply Rabs_le_between in HB. nra. }
  assert (U2 : - 1 * (L N - h0 * 1) <= eps / 2 * 1 + C * V N).
  { apply (is_RInt_gen_le_on _ _ _ _) with (2 := is_RInt_gen_mult_l Fa Fb _ (- 1) _ QL) (3 := QU). intros t Ht. specialize (HB t Ht). specialize (f_pos N t Ht).
    apply Rabs_le_between in HB. nra. }
  apply Rabs_def1; nra.
Qed.

(** A function of quadratic growth in [phi] that is close to [h0] where [phi] is close to [phi0]. *)
Lemma growth_bound (h : R -> R) (h0 M : R) :
  (forall t, I t -> Rabs (h t) <= M * (1 + phi t ^ 2)) ->
  (forall eps, 0 < eps -> exists delta, 0 < delta /\ forall t, I t -> Rabs (phi t - phi0) < delta -> Rabs (h t - h0) < eps) ->
  forall eps, 0 < eps -> exists C, 0 <= C /\ forall t, I t -> Rabs (h t - h0) <= eps + C * (phi t - phi0) ^ 2.
Proof.
  intros HM Hc eps He. destruct (Hc eps He) as (d & Hd & Hn).
  destruct (ends_inhabited _ _ _ E) as [c Hcc].
  assert (M0 : 0 <= M).
  { specialize (HM c Hcc). pose proof (Rabs_pos (h c)). pose proof (pow2_ge_0 (phi c)). 
    destruct (Rle_or_lt 0 M); auto. exfalso. nra. }
  set (A := M * (1 + 2 * phi0 ^ 2) + Rabs h0).
  assert (HA : 0 <= A). { unfold A. pose proof (Rabs_pos h0). pose proof (pow2_ge_0 phi0). nra. }
  exists (A / d ^ 2 + 2 * M). split.
  - assert (0 <= A / d ^ 2); [|lra]. apply Rmult_le_pos; [exact HA|]. left. apply Rinv_0_lt_compat. now apply pow_lt.
  - intros t Ht. destruct (Rlt_dec (Rabs (phi t - phi0)) d) as [Hl|Hl].
    + specialize (Hn t Ht Hl). pose proof (pow2_ge_0 (phi t - phi0)).
      assert (0 <= A / d ^ 2). { apply Rmult_le_pos; [exact HA|]. left. apply Rinv_0_lt_compat. now apply pow_lt. }
      nra.
    + apply Rnot_lt_le in Hl. set (u := phi t - phi0) in *.
      assert (Hu : d ^ 2 <= u ^ 2). { rewrite <- (pow2_abs u). apply pow_incr. lra. }
      assert (K : A <= A / d ^ 2 * u ^ 2).
      { replace A with (A / d ^ 2 * d ^ 2) at 1 by (field; lra). apply Rmult_le_compat_l; [|exact Hu].
        apply Rmult_le_pos; [exact HA|]. left. apply Rinv_0_lt_compat. now apply pow_lt. }
      pose proof (Rabs_triang (h t) (- h0)) as T. rewrite Rabs_Ropp in T. fold (h t - h0) in T. specialize (HM t Ht).
      assert (P : phi t ^ 2 <= 2 * phi0 ^ 2 + 2 * u ^ 2).
      { unfold u. pose proof (pow2_ge_0 (phi t - 2 * phi0)). nra. }
      assert (M * (1 + phi t ^ 2) <= M * (1 + (2 * phi0 ^ 2 + 2 * u ^ 2))) by (apply Rmult_le_compat_l; lra).
      unfold A in *. nra.
Qed.
End On.

Lemma spread_about I Fa Fb (E : Ends I Fa Fb) (f phi : R -> R) (m m2 c : R) :
  is_RInt_gen f Fa Fb 1 -> is_RInt_gen (fun t => phi t * f t) Fa Fb m -> is_RInt_gen (fun t => phi t ^ 2 * f t) Fa Fb m2 ->
  is_RInt_gen (fun t => (phi t - c) ^ 2 * f t) Fa Fb (m2 - 2 * c * m + c ^ 2).
Proof.
  intros H0 H1 H2. pose proof (e_Fa _ _ _ E) as PA. pose proof (e_Fb _ _ _ E) as PB.
  pose proof (is_RInt_gen_plus_R Fa Fb _ _ _ _ (is_RInt_gen_minus_R Fa Fb _ _ _ _ H2 (is_RInt_gen_mult_l Fa Fb _ (2 * c) _ H1))
     (is_RInt_gen_mult_l Fa Fb _ (c ^ 2) _ H0)) as Q.
  replace (m2 - 2 * c * m + c ^ 2) with (m2 - 2 * c * m + c ^ 2 * 1) by ring.
  revert Q. apply (is_RInt_gen_ext_on _ _ _ E). intros t _. ring.
Qed.

(** The identity as reparametrisation. *)
Lemma concentrates_intro I Fa Fb (E : Ends I Fa Fb) (f : nat -> R -> R) (t0 : R) (V : nat -> R) :
  (forall N t, I t -> 0 <= f N t) -> (forall N, is_RInt_gen (f N) Fa Fb 1) ->
  (forall N, is_RInt_gen (fun t => (t - t0) ^ 2 * f N t) Fa Fb (V N)) -> is_lim_seq V 0 ->
  concentrates Fa Fb I f t0.
Proof.
  intros Hp H1 HV HL h M L HM Hc HI. apply (spread_limit I Fa Fb E f Hp H1 (fun t => t) t0 V HV HL h (h t0) L); [|exact HI].
  apply (growth_bound I Fa Fb E (fun t => t) t0 h (h t0) M).
  - intros t Ht. specialize (HM t Ht). pose proof (Rabs_pos (h t)). pose proof (pow2_ge_0 t). nra.
  - exact Hc.
Qed.

(** The reciprocal as reparametrisation. *)
Lemma inv_close t0 eps : 0 < t0 -> 0 < eps -> exists delta, 0 < delta /\ forall t, 0 < t -> Rabs (/ t - / t0) < delta -> Rabs (t - t0) < eps.
Proof.
  intros H0 He. pose proof (Rinv_0_lt_compat _ H0) as Hi.
  exists (Rmin (/ t0 / 2) (eps / (2 * t0 ^ 2))). split.
  - apply Rmin_pos; [lra|]. apply Rdiv_lt_0_compat; [lra|]. pose proof (pow_lt t0 2 H0). lra.
  - intros s Hs Hd. pose proof (Rlt_le_trans _ _ _ Hd (Rmin_l _ _)) as D1. pose proof (Rlt_le_trans _ _ _ Hd (Rmin_r _ _)) as D2.
    pose proof (Rinv_0_lt_compat _ Hs) as Hsi.
    assert (S2 : s < 2 * t0).
    { apply Rabs_def2 in D1. assert (/ t0 / 2 < / s) by lra. replace (/ t0 / 2) with (/ (2 * t0)) in H by (field; lra).
      apply Rinv_lt_cancel in H; lra. }
    replace (s - t0) with (- (s * t0 * (/ s - / t0))) by (field; lra). rewrite Rabs_Ropp, Rabs_mult, (Rabs_pos_eq (s * t0)) by nra.
    apply Rle_lt_trans with (2 * t0 ^ 2 * Rabs (/ s - / t0)); [apply Rmult_le_compat_r; [apply Rabs_pos|]; nra|].
    assert (P : 0 < 2 * t0 ^ 2) by (pose proof (pow_lt t0 2 H0); lra).
    apply (Rmult_lt_compat_l _ _ _ P) in D2. replace (2 * t0 ^ 2 * (eps / (2 * t0 ^ 2))) with eps in D2 by (field; lra). exact D2.
Qed.

Lemma concentrates_inv_intro (f : nat -> R -> R) (t0 : R) (V : nat -> R) : 0 < t0 ->
  (forall N t, 0 < t -> 0 <= f N t) -> (forall N, is_RInt_gen (f N) (at_right 0) (Rbar_locally p_infty) 1) ->
  (forall N, is_RInt_gen (fun t => (/ t - / t0) ^ 2 * f N t) (at_right 0) (Rbar_locally p_infty) (V N)) -> is_lim_seq V 0 ->
  concentrates (at_right 0) (Rbar_locally p_infty) positive f t0.
Proof.
  intros H0 Hp H1 HV HL h M L HM Hc HI. apply (spread_limit _ _ _ ends_pos f Hp H1 (fun t => / t) (/ t0) V HV HL h (h t0) L); [|exact HI].
  apply (growth_bound _ _ _ ends_pos (fun t => / t) (/ t0) h (h t0) M).
  - intros t Ht. specialize (HM t Ht). pose proof (Rabs_pos (h t)). pose proof (pow2_ge_0 (/ t)). nra.
  - intros eps He. destruct (Hc eps He) as (d & Hd & K). destruct (inv_close t0 d H0 Hd) as (d' & Hd' & K').
    exists d'. split; [exact Hd'|]. intros t Ht Htd. apply K; [exact Ht|]. now apply K'.
Qed.
