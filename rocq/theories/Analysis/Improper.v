(** Improper integrals of continuous functions on an interval: existence for
    non-negative functions, comparison, substitution, fundamental theorem. *)

From Coq Require Import Reals Lra Psatz Classical.
From Coquelicot Require Import Coquelicot.
Open Scope R_scope.

(** [Fa] and [Fb] approach the two ends of the interval [I]. *)
Record Ends (I : R -> Prop) (Fa Fb : (R -> Prop) -> Prop) : Prop := {
  e_Fa : ProperFilter Fa;
  e_Fb : ProperFilter Fb;
  e_cvx : forall a b x, I a -> I b -> a <= x <= b -> I x;
  e_inA : Fa I;
  e_inB : Fb I;
  e_A : forall c, I c -> Fa (fun x => x <= c);
  e_B : forall c, I c -> Fb (fun x => c <= x)
}.

Definition cont_on (f : R -> R) (I : R -> Prop) := forall x, I x -> continuous f x.

(** Supremum of the integrals over compact sub-intervals. *)
Definition sup_int (f : R -> R) (I : R -> Prop) (l : R) : Prop :=
  (forall a b, I a -> I b -> a <= b -> RInt f a b <= l) /\
  (forall eps, 0 < eps -> exists a b, I a /\ I b /\ a <= b /\ l - eps < RInt f a b).

Section OnInterval.
Implicit Types f g F phi dphi : R -> R.
Implicit Types l lg la lb a b c x : R.
Implicit Types y M eps : R.
Context (I : R -> Prop) (Fa Fb : (R -> Prop) -> Prop) (E : Ends I Fa Fb).

Lemma ends_between a b x : I a -> I b -> Rmin a b <= x <= Rmax a b -> I x.
Proof.
  intros Ha Hb Hx. destruct (Rle_dec a b) as [H|H].
  - rewrite Rmin_left, Rmax_right in Hx by lra. exact (e_cvx _ _ _ E a b x Ha Hb Hx).
  - rewrite Rmin_right, Rmax_left in Hx by lra. exact (e_cvx _ _ _ E b a x Hb Ha Hx).
Qed.

Lemma ends_inhabited : exists c, I c.
Proof.
  destruct E as [PA _ _ H _ _ _].
  apply filter_ex in H. exact H.
Qed.

Lemma cont_ex_RInt f a b : cont_on f I -> I a -> I b -> ex_RInt f a b.
Proof.
  intros Hf Ha Hb. apply (ex_RInt_continuous (V:=R_CompleteNormedModule)). intros z Hz.
  apply Hf. now apply (ends_between a b).
Qed.

Lemma cont_is_RInt f a b : cont_on f I -> I a -> I b -> is_RInt f a b (RInt f a b).
Proof. intros. apply (RInt_correct (V:=R_CompleteNormedModule)). now apply cont_ex_RInt. Qed.

Lemma RInt_mono_interval f a b a' b' :
  cont_on f I -> (forall x, I x -> 0 <= f x) ->
  I a' -> I b' -> a' <= a -> a <= b -> b <= b' -> RInt f a b <= RInt f a' b'.
Proof.
  intros Hf Hp Ha' Hb' H1 H2 H3.
  assert (Ha : I a) by (apply (e_cvx _ _ _ E a' b'); auto; lra).
  assert (Hb : I b) by (apply (e_cvx _ _ _ E a' b'); auto; lra).
  assert (HC : RInt f a' b' = RInt f a' a + (RInt f a b + RInt f b b')).
  { pose proof (RInt_Chasles (V:=R_CompleteNormedModule) f a b b'
      (cont_ex_RInt f a b Hf Ha Hb) (cont_ex_RInt f b b' Hf Hb Hb')) as H4.
    pose proof (RInt_Chasles (V:=R_CompleteNormedModule) f a' a b'
      (cont_ex_RInt f a' a Hf Ha' Ha) (cont_ex_RInt f a b' Hf Ha Hb')) as H5.
    unfold plus in H4, H5; simpl in H4, H5. rewrite <- H5, <- H4. reflexivity. }
  rewrite HC.
  assert (0 <= RInt f a' a).
  { apply RInt_ge_0; auto. now apply cont_ex_RInt.
    intros x Hx. apply Hp. apply (e_cvx _ _ _ E a' a); auto; lra. }
  assert (0 <= RInt f b b').
  { apply RInt_ge_0; auto. now apply cont_ex_RInt.
    intros x Hx. apply Hp. apply (e_cvx _ _ _ E b b'); auto; lra. }
  lra.
Qed.

Lemma is_RInt_gen_filterlim f (l : R) :
  cont_on f I ->
  filterlim (fun ab => RInt f (fst ab) (snd ab)) (filter_prod Fa Fb) (locally l) ->
  is_RInt_gen f Fa Fb l.
Proof.
  intros Hf HL P HP. specialize (HL P HP). unfold filtermapi, filtermap in *.
  pose proof (e_Fa _ _ _ E) as PA. pose proof (e_Fb _ _ _ E) as PB.
  assert (HI : filter_prod Fa Fb (fun ab => I (fst ab) /\ I (snd ab))).
  { apply Filter_prod with I I; auto; apply E. }
  apply (filter_imp (fun ab => (I (fst ab) /\ I (snd ab)) /\ P (RInt f (fst ab) (snd ab)))).
  - intros [a b] [[Ha Hb] HPab]; simpl in *.
    exists (RInt f a b). split; auto. now apply cont_is_RInt.
  - apply filter_and; auto.
Qed.

Lemma is_RInt_gen_filterlim_inv f (l : R) :
  is_RInt_gen f Fa Fb l ->
  filterlim (fun ab => RInt f (fst ab) (snd ab)) (filter_prod Fa Fb) (locally l).
Proof.
  intros H P HP. specialize (H P HP).
  unfold filtermap, filtermapi in *.
  pose proof (e_Fa _ _ _ E) as PA. pose proof (e_Fb _ _ _ E) as PB.
  revert H. apply filter_imp. intros [a b] [y [Hy Py]]; simpl in *.
  now rewrite (is_RInt_unique _ _ _ _ Hy).
Qed.

Lemma sup_int_is_RInt_gen f l :
  cont_on f I -> (forall x, I x -> 0 <= f x) ->
  sup_int f I l -> is_RInt_gen f Fa Fb l.
Proof.
  intros Hf Hp [Hub Hlub]. apply is_RInt_gen_filterlim; auto.
  pose proof (e_Fa _ _ _ E) as PA. pose proof (e_Fb _ _ _ E) as PB.
  intros P [eps HP].
  destruct (Hlub eps (cond_pos eps)) as (a0 & b0 & Ha0 & Hb0 & Hab0 & Hl).
  apply Filter_prod with (fun x => I x /\ x <= a0) (fun x => I x /\ b0 <= x).
  - apply filter_and. apply E. now apply E.
  - apply filter_and. apply E. now apply E.
  - intros a b [Ia La] [Ib Lb]; simpl.
    apply HP. apply Rabs_def1.
    + unfold minus, plus, opp; simpl.
      assert (RInt f a b <= l) by (apply Hub; auto; lra).
      pose proof (cond_pos eps). lra.
    + unfold minus, plus, opp; simpl.
      assert (RInt f a0 b0 <= RInt f a b) by (apply RInt_mono_interval; auto; lra).
      lra.
Qed.

Lemma is_RInt_gen_sup_int f l :
  cont_on f I -> (forall x, I x -> 0 <= f x) ->
  is_RInt_gen f Fa Fb l -> sup_int f I l.
Proof.
  intros Hf Hp H. apply is_RInt_gen_filterlim_inv in H.
  pose proof (e_Fa _ _ _ E) as PA. pose proof (e_Fb _ _ _ E) as PB.
  assert (HI : forall a0 b0, I a0 -> I b0 ->
     filter_prod Fa Fb (fun ab => (I (fst ab) /\ fst ab <= a0) /\ (I (snd ab) /\ b0 <= snd ab))).
  { intros a0 b0 Ha0 Hb0.
    apply Filter_prod with (fun x => I x /\ x <= a0) (fun x => I x /\ b0 <= x).
    - apply filter_and. apply E. now apply E.
    - apply filter_and. apply E. now apply E.
    - simpl; auto. }
  assert (HE : forall (eps : posreal),
     filter_prod Fa Fb (fun ab => Rabs (RInt f (fst ab) (snd ab) - l) < eps)).
  { intros eps. exact (H (fun y => Rabs (y - l) < eps) (locally_ball l eps)). }
  split.
  - intros a0 b0 Ha0 Hb0 Hab. apply Rnot_lt_le. intros Hlt.
    assert (Hpos : 0 < RInt f a0 b0 - l) by lra.
    pose proof (filter_and _ _ (HI a0 b0 Ha0 Hb0) (HE (mkposreal _ Hpos))) as HF.
    apply filter_ex in HF. destruct HF as [[a b] [[[Ia La] [Ib Lb]] HFa]]; simpl in *.
    assert (RInt f a0 b0 <= RInt f a b) by (apply RInt_mono_interval; auto; lra).
    apply Rabs_def2 in HFa. lra.
  - intros eps He. destruct ends_inhabited as [c Hc].
    pose proof (filter_and _ _ (HI c c Hc Hc) (HE (mkposreal _ He))) as HF.
    apply filter_ex in HF. destruct HF as [[a b] [[[Ia La] [Ib Lb]] HFa]]; simpl in *.
    exists a, b. apply Rabs_def2 in HFa. repeat split; auto; lra.
Qed.

(** A non-negative continuous function whose integrals are bounded is integrable. *)
Lemma bounded_ex_RInt_gen f M :
  cont_on f I -> (forall x, I x -> 0 <= f x) ->
  (forall a b, I a -> I b -> a <= b -> RInt f a b <= M) ->
  exists l, is_RInt_gen f Fa Fb l /\ l <= M.
Proof.
  intros Hf Hp HM.
  set (S := fun y => exists a b, I a /\ I b /\ a <= b /\ y = RInt f a b).
  assert (HB : bound S).
  { exists M. intros y (a & b & Ha & Hb & Hab & ->). now apply HM. }
  assert (HN : exists y, S y).
  { destruct ends_inhabited as [c Hc]. exists (RInt f c c), c, c. repeat split; auto; lra. }
  destruct (completeness S HB HN) as [l [Hub Hlub]].
  exists l. split.
  - apply sup_int_is_RInt_gen; auto. split.
    + intros a b Ha Hb Hab. apply Hub. exists a, b. auto.
    + intros eps He. apply NNPP. intros Hno.
      assert (l <= l - eps).
      { apply Hlub. intros y (a & b & Ha & Hb & Hab & ->).
        apply Rnot_lt_le. intros Hlt. apply Hno. exists a, b. auto. }
      lra.
  - apply Hlub. intros y (a & b & Ha & Hb & Hab & ->). now apply HM.
Qed.

(** Comparison test. *)
Lemma dominated_ex_RInt_gen f g lg :
  cont_on f I -> cont_on g I ->
  (forall x, I x -> 0 <= f x <= g x) ->
  is_RInt_gen g Fa Fb lg ->
  exists l, is_RInt_gen f Fa Fb l /\ l <= lg.
Proof.
  intros Hf Hg Hfg HG.
  apply bounded_ex_RInt_gen; auto.
  - intros x Hx. apply Hfg; auto.
  - intros a b Ha Hb Hab.
    apply is_RInt_gen_sup_int in HG; auto.
    2:{ intros x Hx. specialize (Hfg x Hx); lra. }
    destruct HG as [Hub _].
    apply Rle_trans with (RInt g a b); auto.
    apply RInt_le; auto using cont_ex_RInt.
    intros x Hx. apply Hfg. apply (e_cvx _ _ _ E a b); auto; lra.
Qed.

Lemma is_RInt_gen_ge f l a b :
  cont_on f I -> (forall x, I x -> 0 <= f x) ->
  is_RInt_gen f Fa Fb l -> I a -> I b -> a <= b -> RInt f a b <= l.
Proof. intros Hf Hp H Ha Hb Hab. now apply (is_RInt_gen_sup_int f l Hf Hp H). Qed.

Lemma is_RInt_gen_pos f l :
  cont_on f I -> (forall x, I x -> 0 < f x) ->
  (exists a b, I a /\ I b /\ a < b) ->
  is_RInt_gen f Fa Fb l -> 0 < l.
Proof.
  intros Hf Hp (a & b & Ha & Hb & Hab) H.
  apply Rlt_le_trans with (RInt f a b).
  - apply RInt_gt_0; auto.
    + intros x Hx. apply Hp. apply (e_cvx _ _ _ E a b); auto; lra.
    + intros x Hx. apply Hf. apply (e_cvx _ _ _ E a b); auto; lra.
  - apply (is_RInt_gen_ge f); auto; try lra. intros x Hx; specialize (Hp x Hx); lra.
Qed.

(** Extensionality on the interval. *)
Lemma is_RInt_gen_ext_on f g l :
  (forall x, I x -> f x = g x) -> is_RInt_gen f Fa Fb l -> is_RInt_gen g Fa Fb l.
Proof.
  intros Hfg. pose proof (e_Fa _ _ _ E) as PA. pose proof (e_Fb _ _ _ E) as PB.
  apply is_RInt_gen_ext.
  apply Filter_prod with I I; try apply E.
  intros a b Ha Hb x Hx; simpl in *. apply Hfg. apply (ends_between a b); auto. lra.
Qed.


Lemma is_RInt_gen_unique_on f (l l' : R) :
  is_RInt_gen f Fa Fb l -> is_RInt_gen f Fa Fb l' -> l = l'.
Proof.
  intros H H'. pose proof (e_Fa _ _ _ E) as PA. pose proof (e_Fb _ _ _ E) as PB.
  rewrite <- (is_RInt_gen_unique (V:=R_CompleteNormedModule) f l H).
  exact (is_RInt_gen_unique (V:=R_CompleteNormedModule) f l' H').
Qed.

Lemma RInt_gen_ext_on f g l :
  (forall x, I x -> f x = g x) -> is_RInt_gen f Fa Fb l -> RInt_gen g Fa Fb = l.
Proof.
  intros Hfg H. pose proof (e_Fa _ _ _ E) as PA. pose proof (e_Fb _ _ _ E) as PB.
  apply (is_RInt_gen_unique (V:=R_CompleteNormedModule)). now apply (is_RInt_gen_ext_on f).
Qed.

(** Fundamental theorem. *)
Lemma is_RInt_gen_FTC F f la lb :
  (forall x, I x -> is_derive F x (f x)) -> cont_on f I ->
  filterlim F Fa (locally la) -> filterlim F Fb (locally lb) ->
  is_RInt_gen f Fa Fb (lb - la).
Proof.
  intros HF Hf Hla Hlb.
  pose proof (e_Fa _ _ _ E) as PA. pose proof (e_Fb _ _ _ E) as PB.
  intros P HP.
  assert (HP' : filter_prod Fa Fb (fun ab => P (F (snd ab) - F (fst ab)))).
  { eapply filterlim_comp_2 with (f := fun ab => F (snd ab)) (g := fun ab => - F (fst ab)) (h := Rplus).
    - eapply filterlim_comp, Hlb. apply filterlim_snd.
    - eapply filterlim_comp, @filterlim_opp. eapply filterlim_comp, Hla. apply filterlim_fst.
    - exact (filterlim_plus lb (- la)).
    - exact HP. }
  assert (HI : filter_prod Fa Fb (fun ab => I (fst ab) /\ I (snd ab))).
  { apply Filter_prod with I I; auto; apply E. }
  unfold filtermapi.
  apply (filter_imp (fun ab => (I (fst ab) /\ I (snd ab)) /\ P (F (snd ab) - F (fst ab)))).
  2:{ now apply filter_and. }
  intros [a b] [[Ha Hb] HPab]; simpl in *.
  exists (F b - F a). split; auto.
  apply (is_RInt_derive F f).
  - intros x Hx. apply HF. now apply (ends_between a b).
  - intros x Hx. apply Hf. now apply (ends_between a b).
Qed.

(** Substitution: integrate [f] over another interval. *)
Lemma is_RInt_gen_subst (Ga Gb : (R -> Prop) -> Prop) (J : R -> Prop) (f phi dphi : R -> R) (l : R) :
  Filter Ga -> Filter Gb ->
  (forall x, I x -> J (phi x)) ->
  (forall x, I x -> is_derive phi x (dphi x)) ->
  cont_on dphi I -> cont_on f J ->
  filterlim phi Fa Ga -> filterlim phi Fb Gb ->
  is_RInt_gen f Ga Gb l ->
  is_RInt_gen (fun x => dphi x * f (phi x)) Fa Fb l.
Proof.
  intros FGa FGb HJ Hd Hcd Hcf Ha Hb H P HP.
  pose proof (e_Fa _ _ _ E) as PA. pose proof (e_Fb _ _ _ E) as PB.
  specialize (H P HP). unfold filtermapi in *.
  destruct H as [Q R HQ HR H].
  assert (HA : Fa (fun x => I x /\ Q (phi x))).
  { apply filter_and. apply E. exact (Ha Q HQ). }
  assert (HB : Fb (fun x => I x /\ R (phi x))).
  { apply filter_and. apply E. exact (Hb R HR). }
  apply Filter_prod with (1 := HA) (2 := HB).
  intros a b [Ia Qa] [Ib Rb]; simpl.
  destruct (H (phi a) (phi b) Qa Rb) as [y [Hy Py]]; simpl in *.
  exists y. split; auto.
  rewrite <- (is_RInt_unique _ _ _ _ Hy).
  apply (is_RInt_comp f phi dphi a b).
  - intros x Hx. apply Hcf, HJ. now apply (ends_between a b).
  - intros x Hx. split. apply Hd. now apply (ends_between a b).
    apply Hcd. now apply (ends_between a b).
Qed.

(** The two halves. *)
Lemma ends_left c : I c -> Ends (fun x => I x /\ x <= c) Fa (at_point c).
Proof.
  intros Hc. destruct E as [PA PB Hcvx HA HB HEA HEB]. split; auto.
  - apply at_point_filter.
  - intros a b x [Ha La] [Hb Lb] Hx. split. apply (Hcvx a b); auto. lra.
  - apply filter_and; auto.
  - hnf. split; auto. lra.
  - intros d [Hd Ld]. now apply HEA.
  - intros d [Hd Ld]. hnf. auto.
Qed.

Lemma ends_right c : I c -> Ends (fun x => I x /\ c <= x) (at_point c) Fb.
Proof.
  intros Hc. destruct E as [PA PB Hcvx HA HB HEA HEB]. split; auto.
  - apply at_point_filter.
  - intros a b x [Ha La] [Hb Lb] Hx. split. apply (Hcvx a b); auto. lra.
  - hnf. split; auto. lra.
  - apply filter_and; auto.
  - intros d [Hd Ld]. hnf. auto.
  - intros d [Hd Ld]. now apply HEB.
Qed.

End OnInterval.

(** ** The concrete intervals *)

Lemma ends_pos : Ends (fun x => 0 < x) (at_right 0) (Rbar_locally p_infty).
Proof.
  split.
  - apply at_right_proper_filter.
  - apply Rbar_locally_filter.
  - intros; lra.
  - exists (mkposreal 1 Rlt_0_1). intros y Hy H. exact H.
  - exists 0. auto.
  - intros c Hc. exists (mkposreal c Hc). intros y Hy H.
    unfold ball in Hy; simpl in Hy; unfold AbsRing_ball, abs, minus, plus, opp in Hy; simpl in Hy.
    apply Rabs_def2 in Hy. lra.
  - intros c Hc. exists c. intros; lra.
Qed.

Lemma ends_above a : Ends (fun x => a < x) (at_right a) (Rbar_locally p_infty).
Proof.
  split.
  - apply at_right_proper_filter.
  - apply Rbar_locally_filter.
  - intros; lra.
  - exists (mkposreal 1 Rlt_0_1). intros y Hy H. exact H.
  - exists a. auto.
  - intros c Hc. assert (Hp : 0 < c - a) by lra. exists (mkposreal _ Hp). intros y Hy H.
    unfold ball in Hy; simpl in Hy; unfold AbsRing_ball, abs, minus, plus, opp in Hy; simpl in Hy.
    apply Rabs_def2 in Hy. lra.
  - intros c Hc. exists c. intros; lra.
Qed.

Lemma ends_line : Ends (fun _ => True) (Rbar_locally m_infty) (Rbar_locally p_infty).
Proof.
  split; auto.
  - apply Rbar_locally_filter.
  - apply Rbar_locally_filter.
  - exists 0; auto.
  - exists 0; auto.
  - intros c _. exists c. intros; lra.
  - intros c _. exists c. intros; lra.
Qed.

Lemma ends_open a b : a < b -> Ends (fun x => a < x < b) (at_right a) (at_left b).
Proof.
  intros Hab. split.
  - apply at_right_proper_filter.
  - apply at_left_proper_filter.
  - intros; lra.
  - assert (Hp : 0 < b - a) by lra. exists (mkposreal _ Hp). intros y Hy H.
    unfold ball in Hy; simpl in Hy; unfold AbsRing_ball, abs, minus, plus, opp in Hy; simpl in Hy.
    apply Rabs_def2 in Hy. lra.
  - assert (Hp : 0 < b - a) by lra. exists (mkposreal _ Hp). intros y Hy H.
    unfold ball in Hy; simpl in Hy; unfold AbsRing_ball, abs, minus, plus, opp in Hy; simpl in Hy.
    apply Rabs_def2 in Hy. lra.
  - intros c Hc. assert (Hp : 0 < c - a) by lra. exists (mkposreal _ Hp). intros y Hy H.
    unfold ball in Hy; simpl in Hy; unfold AbsRing_ball, abs, minus, plus, opp in Hy; simpl in Hy.
    apply Rabs_def2 in Hy. lra.
  - intros c Hc. assert (Hp : 0 < b - c) by lra. exists (mkposreal _ Hp). intros y Hy H.
    unfold ball in Hy; simpl in Hy; unfold AbsRing_ball, abs, minus, plus, opp in Hy; simpl in Hy.
    apply Rabs_def2 in Hy. lra.
Qed.
