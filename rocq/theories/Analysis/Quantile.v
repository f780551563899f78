(** A continuous positive density has exactly one quantile for every probability. *)

From Coq Require Import Reals Lra.
From Coquelicot Require Import Coquelicot.
From Verif Require Import Analysis.Improper Analysis.GammaFacts Analysis.Dominance.
Open Scope R_scope.

Lemma ends_iff (I J : R -> Prop) Fa Fb : (forall x, I x <-> J x) -> Ends I Fa Fb -> Ends J Fa Fb.
Proof.
  intros H [PA PB C A B EA EB]. split; auto.
  - intros a b x Ha Hb Hx. apply H. apply (C a b); auto; now apply H.
  - revert A. apply filter_imp. intros x; apply H.
  - revert B. apply filter_imp. intros x; apply H.
  - intros c Hc. apply EA. now apply H.
  - intros c Hc. apply EB. now apply H.
Qed.

Section Quantile.
Context (I : R -> Prop) (Fa Fb : (R -> Prop) -> Prop) (E : Ends I Fa Fb).
Variable f : R -> R.
Hypothesis Cf : cont_on f I.
Hypothesis Pf : forall x, I x -> 0 < f x.
Hypothesis total : is_RInt_gen f Fa Fb 1.

Lemma step p s t : I s -> I t -> s <= t -> is_RInt_gen f Fa (at_point s) p -> is_RInt_gen f Fa (at_point t) (p + RInt f s t).
Proof.
  intros Is It Hst Hs. pose proof (e_Fa _ _ _ E) as PA.
  apply (is_RInt_gen_Chasles (V:=R_NormedModule) f s p (RInt f s t)); auto.
  apply (is_RInt_gen_at_point (V:=R_NormedModule)). now apply (cont_is_RInt I Fa Fb E).
Qed.
Lemma cdf_unique t p p' : I t -> is_RInt_gen f Fa (at_point t) p -> is_RInt_gen f Fa (at_point t) p' -> p = p'.
Proof.
  intros It H H'. apply (is_RInt_gen_unique_on _ _ _ (ends_left I Fa Fb E t It) f); auto. 
Qed.
Lemma RInt_pos s t : I s -> I t -> s < t -> 0 < RInt f s t.
Proof.
  intros Is It Hst. apply RInt_gt_0; auto; intros x Hx; [apply Pf|apply Cf]; apply (e_cvx _ _ _ E s t); auto; lra.
Qed.

Lemma cdf_exists t : I t -> exists p u, is_RInt_gen f Fa (at_point t) p /\ is_RInt_gen f (at_point t) Fb u /\ p + u = 1.
Proof. intros It. exact (halves I Fa Fb E f t Cf Pf total It). Qed.

Lemma cdf_increasing s t p q : I s -> I t -> is_RInt_gen f Fa (at_point s) p -> is_RInt_gen f Fa (at_point t) q ->
  (s < t <-> p < q) /\ (s = t <-> p = q).
Proof.
  intros Is It Hs Ht.
  assert (A : forall s t p q, I s -> I t -> is_RInt_gen f Fa (at_point s) p -> is_RInt_gen f Fa (at_point t) q -> s < t -> p < q).
  { clear -E Cf Pf. intros s t p q Is It Hs Ht Hst. pose proof (step p s t Is It (Rlt_le _ _ Hst) Hs) as H.
    rewrite (cdf_unique t q _ It Ht H). pose proof (RInt_pos s t Is It Hst). lra. }
  assert (B : s = t -> p = q) by (intros ->; exact (cdf_unique t p q It Hs Ht)).
  pose proof (A s t p q Is It Hs Ht). pose proof (A t s q p It Is Ht Hs).
  destruct (Rtotal_order s t) as [L|[L|L]]; split; split; intros; try lra; try (specialize (B L); lra); try (specialize (H L); lra); try (specialize (H0 L); lra).
Qed.

(** the part of the probability that lies inside a compact interval *)
Lemma almost_all e : 0 < e <= 1 -> exists a b, I a /\ I b /\ a < b /\ 1 - e < RInt f a b.
Proof.
  intros He. pose proof (e_Fa _ _ _ E) as PA. pose proof (e_Fb _ _ _ E) as PB.
  assert (P : forall x, I x -> 0 <= f x) by (intros x Hx; specialize (Pf x Hx); lra).
  destruct (is_RInt_gen_sup_int I Fa Fb E f 1 Cf P total) as [Hub Hlub].
  destruct (Hlub e (proj1 He)) as (a & b & Ia & Ib & Hab & H).
  destruct (Req_dec a b) as [->|N]; [|exists a, b; repeat split; auto; lra].
  exfalso. rewrite (RInt_point b f : RInt f b b = 0) in H. lra.
Qed.

Lemma quantile_exists q : 0 < q < 1 -> exists t, I t /\ is_RInt_gen f Fa (at_point t) q.
Proof.
  intros Hq. set (e := Rmin q (1 - q)). assert (He : 0 < e <= 1) by (unfold e; apply Rmin_case_strong; lra).
  destruct (almost_all e He) as (a & b & Ia & Ib & Hab & H).
  destruct (cdf_exists a Ia) as (p & u & Hp & Hu & Hpu). destruct (cdf_exists b Ib) as (p' & u' & Hp' & Hu' & Hpu').
  pose proof (cdf_unique b _ _ Ib Hp' (step p a b Ia Ib (Rlt_le _ _ Hab) Hp)) as Ep.
  assert (P : forall x, I x -> 0 <= f x) by (intros x Hx; specialize (Pf x Hx); lra).
  assert (N : forall s v, I s -> is_RInt_gen f Fa (at_point s) v -> 0 <= v).
  { intros s v Is Hv. rewrite <- (RInt_point s f : RInt f s s = 0).
    apply (is_RInt_gen_ge _ _ _ (ends_left I Fa Fb E s Is) f); auto; try (intros x [Hx _]; auto); try lra; split; auto; lra. }
  assert (N' : 0 <= u').
  { rewrite <- (RInt_point b f : RInt f b b = 0).
    apply (is_RInt_gen_ge _ _ _ (ends_right I Fa Fb E b Ib) f); auto; try (intros x [Hx _]; auto); try lra; split; auto; lra. }
  pose proof (N a p Ia Hp) as Np.
  assert (Rl : e <= q /\ e <= 1 - q) by (unfold e; split; [apply Rmin_l|apply Rmin_r]).
  assert (La : p < q) by lra. assert (Lb : q < p') by lra.
  assert (D : forall x, a <= x <= b -> I x) by (intros x Hx; apply (e_cvx _ _ _ E a b); auto).
  set (clamp t := Rmax a (Rmin b t)). set (g t := f (clamp t)).
  assert (Cc : forall t, continuous clamp t).
  { intros t. apply filterlim_locally. intros eps. exists eps. intros y Hy.
    unfold ball in Hy |- *; simpl in Hy |- *; unfold AbsRing_ball, abs, minus, plus, opp in Hy |- *; simpl in Hy |- *.
    apply Rle_lt_trans with (2 := Hy). unfold clamp, Rmax, Rmin. repeat destruct Rle_dec; unfold Rabs; repeat destruct Rcase_abs; lra. }
  assert (Cg : forall t, continuous g t).
  { intros t. apply (continuous_comp clamp f). apply Cc. apply Cf. apply D. unfold clamp. split. apply Rmax_l. apply Rmax_lub. lra. apply Rmin_l. }
  assert (Eg : forall t, a <= t <= b -> RInt g a t = RInt f a t).
  { intros t Ht. apply RInt_ext. intros x Hx. rewrite Rmin_left, Rmax_right in Hx by lra. unfold g, clamp. rewrite Rmin_right, Rmax_right by lra. reflexivity. }
  destruct (IVT_gen (fun t => RInt g a t) a b (q - p)) as (t & Ht & Et).
  { intros x. apply continuity_pt_filterlim. apply (ex_derive_continuous (V:=R_NormedModule)). exists (g x).
    apply (is_derive_RInt (V:=R_NormedModule) g (fun t => RInt g a t) a x).
    - exists (mkposreal 1 Rlt_0_1). intros y _. apply (RInt_correct (V:=R_CompleteNormedModule)). apply (ex_RInt_continuous (V:=R_CompleteNormedModule)). intros; apply Cg.
    - apply Cg. }
  { rewrite !Eg by lra. rewrite (RInt_point a f : RInt f a a = 0). rewrite Rmin_left, Rmax_right; lra. }
  rewrite Rmin_left, Rmax_right in Ht by lra. rewrite Eg in Et by lra. exists t. assert (It : I t) by auto. split; auto.
  replace q with (p + RInt f a t) by lra. apply step; auto. lra.
Qed.

(** the probability between two points *)
Lemma between s t p u : I s -> I t -> s < t -> is_RInt_gen f Fa (at_point s) p -> is_RInt_gen f (at_point t) Fb u ->
  is_RInt f s t (1 - p - u).
Proof.
  intros Is It Hst Hp Hu. pose proof (step p s t Is It (Rlt_le _ _ Hst) Hp) as H.
  destruct (cdf_exists t It) as (p' & u' & Hp' & Hu' & Epu).
  rewrite (cdf_unique t _ _ It Hp' H) in Epu.
  assert (Eu : u' = u) by (apply (is_RInt_gen_unique_on _ _ _ (ends_right I Fa Fb E t It) f); auto).
  replace (1 - p - u) with (RInt f s t) by lra. now apply (cont_is_RInt I Fa Fb E).
Qed.
Lemma upper_tail t p : I t -> is_RInt_gen f Fa (at_point t) p -> is_RInt_gen f (at_point t) Fb (1 - p).
Proof.
  intros It Hp. destruct (cdf_exists t It) as (p' & u' & Hp' & Hu' & Epu). rewrite (cdf_unique t p p' It Hp Hp'). now replace (1 - p') with u' by lra.
Qed.
Lemma lower_tail t u : I t -> is_RInt_gen f (at_point t) Fb u -> is_RInt_gen f Fa (at_point t) (1 - u).
Proof.
  intros It Hu. destruct (cdf_exists t It) as (p' & u' & Hp' & Hu' & Epu).
  assert (Eu : u' = u) by (apply (is_RInt_gen_unique_on _ _ _ (ends_right I Fa Fb E t It) f); auto). now replace (1 - u) with p' by lra.
Qed.
End Quantile.
