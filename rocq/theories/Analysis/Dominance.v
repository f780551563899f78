(** Densities with an increasing ratio are ordered. *)

From Coq Require Import Reals Lra.
From Coquelicot Require Import Coquelicot.
From Verif Require Import Analysis.Improper Analysis.GammaFacts Spec.Dominance.
Open Scope R_scope.

Section Dominance.
Context (I : R -> Prop) (Fa Fb : (R -> Prop) -> Prop) (E : Ends I Fa Fb).
Hypothesis open_l : forall t, I t -> exists c, I c /\ c < t.
Hypothesis open_r : forall t, I t -> exists c, I c /\ t < c.

Lemma halves (f : R -> R) t : cont_on f I -> (forall x, I x -> 0 < f x) -> is_RInt_gen f Fa Fb 1 -> I t ->
  exists F S, is_RInt_gen f Fa (at_point t) F /\ is_RInt_gen f (at_point t) Fb S /\ F + S = 1.
Proof.
  intros Cf Pf Hf Ht. pose proof (e_Fa _ _ _ E) as PA. pose proof (e_Fb _ _ _ E) as PB.
  assert (Up : forall a b, I a -> I b -> a <= b -> RInt f a b <= 1).
  { intros a b Ha Hb Hab. apply (is_RInt_gen_ge I Fa Fb E f); auto. intros x Hx. specialize (Pf x Hx). lra. }
  destruct (bounded_ex_RInt_gen _ _ _ (ends_left I Fa Fb E t Ht) f 1) as (F & HF & _).
  { intros x [Hx _]. auto. } { intros x [Hx _]. specialize (Pf x Hx). lra. } { intros a b [Ha _] [Hb _]. auto. }
  destruct (bounded_ex_RInt_gen _ _ _ (ends_right I Fa Fb E t Ht) f 1) as (S & HS & _).
  { intros x [Hx _]. auto. } { intros x [Hx _]. specialize (Pf x Hx). lra. } { intros a b [Ha _] [Hb _]. auto. }
  exists F, S. split; [exact HF|]. split; [exact HS|].
  apply (is_RInt_gen_unique_on I Fa Fb E f); auto. exact (is_RInt_gen_Chasles (V:=R_NormedModule) f t F S HF HS).
Qed.

(** A continuous function that is positive inside an interval has a positive integral. *)
Lemma positive_inside J Ga Gb (EJ : Ends J Ga Gb) (h : R -> R) l a b :
  cont_on h J -> (forall x, J x -> 0 <= h x) -> J a -> J b -> a < b -> (forall x, a < x < b -> 0 < h x) ->
  is_RInt_gen h Ga Gb l -> 0 < l.
Proof.
  intros C P Ja Jb Hab Pin H. apply Rlt_le_trans with (RInt h a b).
  - apply RInt_gt_0; auto. intros x Hx. apply C. apply (e_cvx _ _ _ EJ a b); auto; lra.
  - apply (is_RInt_gen_ge J Ga Gb EJ h); auto. lra.
Qed.

Lemma ratio_increasing (f g : R -> R) :
  cont_on f I -> cont_on g I -> (forall x, I x -> 0 < f x) -> (forall x, I x -> 0 < g x) ->
  is_RInt_gen f Fa Fb 1 -> is_RInt_gen g Fa Fb 1 ->
  (forall x y, I x -> I y -> x < y -> g x * f y < g y * f x) ->
  moved_up Fa I f g.
Proof.
  intros Cf Cg Pf Pg Hf Hg R t Ht. pose proof (e_Fa _ _ _ E) as PA. pose proof (e_Fb _ _ _ E) as PB.
  destruct (halves f t) as (Ff & Sf & HFf & HSf & Ef); auto.
  destruct (halves g t) as (Fg & Sg & HFg & HSg & Eg); auto.
  exists Ff, Fg. split; [exact HFf|]. split; [exact HFg|].
  destruct (Rle_or_lt (g t) (f t)) as [H|H].
  - assert (B : forall x, I x -> x < t -> g x < f x).
    { intros x Hx Hxt. specialize (R x t Hx Ht Hxt). specialize (Pf x Hx) as Px. specialize (Pf t Ht) as Pt.
      apply (Rmult_lt_reg_r (f t)); auto. nra. }
    destruct (open_l t Ht) as (c & Ic & Hc).
    assert (0 < Ff - Fg); [|lra].
    apply (positive_inside _ _ _ (ends_left I Fa Fb E t Ht) (fun x => f x - g x) (Ff - Fg) c t); auto; try (split; auto; lra).
    + intros x [Hx _]. apply (continuous_minus (V:=R_NormedModule)); auto.
    + intros x [Hx L]. destruct (Rle_lt_or_eq_dec _ _ L) as [L'| ->]; [specialize (B x Hx L'); lra|lra].
    + intros x [H1 H2]. assert (I x) by (apply (e_cvx _ _ _ E c t); auto; lra). specialize (B x H0 H2). lra.
    + apply (is_RInt_gen_minus_R Fa (at_point t)); auto.
  - assert (B : forall x, I x -> t < x -> f x < g x).
    { intros x Hx Hxt. specialize (R t x Ht Hx Hxt). specialize (Pf x Hx) as Px. specialize (Pf t Ht) as Pt.
      apply (Rmult_lt_reg_r (f t)); auto. nra. }
    destruct (open_r t Ht) as (c & Ic & Hc).
    assert (0 < Sg - Sf); [|lra].
    apply (positive_inside _ _ _ (ends_right I Fa Fb E t Ht) (fun x => g x - f x) (Sg - Sf) t c); auto; try (split; auto; lra).
    + intros x [Hx _]. apply (continuous_minus (V:=R_NormedModule)); auto.
    + intros x [Hx L]. destruct (Rle_lt_or_eq_dec _ _ L) as [L'|<-]; [specialize (B x Hx L'); lra|lra].
    + intros x [H1 H2]. assert (I x) by (apply (e_cvx _ _ _ E t c); auto; lra). specialize (B x H0 H1). lra.
    + apply (is_RInt_gen_minus_R (at_point t) Fb); auto.
Qed.

(** The same through the kernels. *)
Lemma kernels_increasing (f g kf kg : R -> R) cf cg : 0 < cf -> 0 < cg ->
  (forall x, I x -> f x = cf * kf x) -> (forall x, I x -> g x = cg * kg x) ->
  cont_on kf I -> cont_on kg I -> (forall x, I x -> 0 < kf x) -> (forall x, I x -> 0 < kg x) ->
  is_RInt_gen f Fa Fb 1 -> is_RInt_gen g Fa Fb 1 ->
  (forall x y, I x -> I y -> x < y -> kg x * kf y < kg y * kf x) ->
  moved_up Fa I f g.
Proof.
  intros Pcf Pcg Ef Eg Cf Cg Pf Pg Hf Hg R.
  assert (M : moved_up Fa I (fun x => cf * kf x) (fun x => cg * kg x)).
  { apply ratio_increasing.
    - intros x Hx. apply (continuous_mult (K:=R_AbsRing)); [apply continuous_const|auto].
    - intros x Hx. apply (continuous_mult (K:=R_AbsRing)); [apply continuous_const|auto].
    - intros x Hx. apply Rmult_lt_0_compat; auto.
    - intros x Hx. apply Rmult_lt_0_compat; auto.
    - revert Hf. apply (is_RInt_gen_ext_on I Fa Fb E). auto.
    - revert Hg. apply (is_RInt_gen_ext_on I Fa Fb E). auto.
    - intros x y Hx Hy Hxy. specialize (R x y Hx Hy Hxy).
      replace (cg * kg x * (cf * kf y)) with (cg * cf * (kg x * kf y)) by ring.
      replace (cg * kg y * (cf * kf x)) with (cg * cf * (kg y * kf x)) by ring.
      apply Rmult_lt_compat_l; auto. now apply Rmult_lt_0_compat. }
  intros t Ht. destruct (M t Ht) as (F & G & HF & HG & L). exists F, G.
  split; [|split; [|exact L]].
  - revert HF. apply (is_RInt_gen_ext_on _ _ _ (ends_left I Fa Fb E t Ht)). intros x [Hx _]. symmetry. auto.
  - revert HG. apply (is_RInt_gen_ext_on _ _ _ (ends_left I Fa Fb E t Ht)). intros x [Hx _]. symmetry. auto.
Qed.
End Dominance.
