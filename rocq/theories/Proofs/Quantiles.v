(** Quantiles of densities that concentrate at a point tend to that point. *)

From Coq Require Import Reals Lra Classical.
From Coquelicot Require Import Coquelicot.
From Verif Require Import Analysis.Improper Analysis.GammaFacts Spec.Limits Spec.Recovery.
Open Scope R_scope.

Section Cut.
Context (I : R -> Prop) (Fa Fb : (R -> Prop) -> Prop) (E : Ends I Fa Fb).
Context (f : R -> R).

(** The proper integrals inside an improper one. *)
Lemma inner_right (q c l : R) : I c -> q <= c -> is_RInt_gen f (at_point q) Fb l -> ex_RInt f q c.
Proof.
  intros Hc Hq H. destruct (H (fun _ => True)) as [Q S HQ HS Hx]. { exists (mkposreal 1 Rlt_0_1). auto. }
  pose proof (e_Fb _ _ _ E) as PB. destruct (filter_ex _ (filter_and _ _ HS (e_B _ _ _ E c Hc))) as (y & Hy & Hcy).
  destruct (Hx q y HQ Hy) as (v & Hv & _). apply (ex_RInt_Chasles_1 (V:=R_CompleteNormedModule) f q c y); [lra|]. now exists v.
Qed.

Lemma inner_left (q c l : R) : I c -> c <= q -> is_RInt_gen f Fa (at_point q) l -> ex_RInt f c q.
Proof.
  intros Hc Hq H. destruct (H (fun _ => True)) as [Q S HQ HS Hx]. { exists (mkposreal 1 Rlt_0_1). auto. }
  pose proof (e_Fa _ _ _ E) as PA. destruct (filter_ex _ (filter_and _ _ HQ (e_A _ _ _ E c Hc))) as (y & Hy & Hcy).
  destruct (Hx y q Hy HS) as (v & Hv & _). apply (ex_RInt_Chasles_2 (V:=R_CompleteNormedModule) f y c q); [lra|]. now exists v.
Qed.

(** Moving the cut from [q] to [c]. *)
Lemma move_cut (q c l r : R) : I q -> I c -> is_RInt_gen f Fa (at_point q) l -> is_RInt_gen f (at_point q) Fb r ->
  exists v, is_RInt f q c v /\ is_RInt_gen f Fa (at_point c) (l + v) /\ is_RInt_gen f (at_point c) Fb (r - v).
Proof.
  intros Hq Hc Hl Hr. assert (X : ex_RInt f q c).
  { destruct (Rle_dec q c) as [H|H]; [now apply (inner_right q c r)|]. apply ex_RInt_swap. apply (inner_left q c l); auto; lra. }
  destruct X as (v & Hv). exists v. split; [exact Hv|].
  pose proof (e_Fa _ _ _ E) as PA. pose proof (e_Fb _ _ _ E) as PB. split.
  - apply (is_RInt_gen_Chasles (V:=R_NormedModule) (Fa:=Fa) (Fc:=at_point c) f q l v Hl). now apply is_RInt_gen_at_point.
  - apply is_RInt_swap in Hv. replace (r - v) with (plus (opp v) r) by (unfold plus, opp; simpl; ring).
    apply (is_RInt_gen_Chasles (V:=R_NormedModule) (Fa:=at_point c) (Fc:=Fb) f q (opp v) r); [|exact Hr]. now apply is_RInt_gen_at_point.
Qed.

(** The expectation of "at most c". *)
Definition at_most (c t : R) : R := if Rle_dec t c then 1 else 0.

Lemma at_most_expectation (c l r : R) : I c -> is_RInt_gen f Fa (at_point c) l -> is_RInt_gen f (at_point c) Fb r ->
  is_RInt_gen (fun t => at_most c t * f t) Fa Fb l.
Proof.
  intros Hc Hl Hr. pose proof (e_Fa _ _ _ E) as PA. pose proof (e_Fb _ _ _ E) as PB.
  replace l with (plus l 0) by (unfold plus; simpl; ring).
  apply (is_RInt_gen_Chasles (V:=R_NormedModule) (Fa:=Fa) (Fc:=Fb) _ c l 0).
  - apply (is_RInt_gen_ext_on _ _ _ (ends_left _ _ _ E c Hc) f); [|exact Hl].
    intros t [_ Ht]. unfold at_most. destruct (Rle_dec t c); [ring|contradiction].
  - replace 0 with (0 * r) by ring. pose proof (is_RInt_gen_mult_l (at_point c) Fb f 0 r Hr) as Z.
    revert Z. apply (is_RInt_gen_ext (V:=R_NormedModule)).
    exists (fun x => x = c) (fun x => c <= x); [reflexivity|exact (e_B _ _ _ E c Hc)|].
    intros x y -> Hy t. simpl. rewrite Rmin_left, Rmax_right by exact Hy. intros Ht. unfold at_most. destruct (Rle_dec t c); [lra|ring].
Qed.
End Cut.

Lemma at_most_bound c t : Rabs (at_most c t) <= 1.
Proof. unfold at_most. destruct (Rle_dec t c); [rewrite Rabs_R1|rewrite Rabs_R0]; lra. Qed.

Lemma at_most_continuous dom c t0 : c <> t0 -> continuous_along dom (at_most c) t0.
Proof.
  intros H eps He. exists (Rabs (c - t0)). split; [apply Rabs_pos_lt; lra|]. intros t _ Ht.
  assert (at_most c t = at_most c t0); [|rewrite H0, Rminus_eq_0, Rabs_R0; exact He].
  unfold at_most. apply Rabs_def2 in Ht. unfold Rabs in Ht. destruct (Rcase_abs (c - t0)); destruct (Rle_dec t c), (Rle_dec t0 c); try reflexivity; lra.
Qed.

Lemma is_RInt_sign (f : R -> R) (a b v : R) : a <= b -> (forall t, a < t < b -> 0 <= f t) -> is_RInt f a b v -> 0 <= v.
Proof.
  intros H Hf Hv. rewrite <- (is_RInt_unique (V:=R_CompleteNormedModule) _ _ _ _ Hv). apply RInt_ge_0; [exact H|now exists v|exact Hf].
Qed.

Lemma quantiles_tend (I : R -> Prop) Fa Fb (E : Ends I Fa Fb) (f : nat -> R -> R) (t0 p : R) (q : nat -> R) :
  concentrates Fa Fb I f t0 -> (forall N t, I t -> 0 <= f N t) -> I t0 -> 0 < p < 1 ->
  (forall N, I (q N) /\ is_quantile Fa Fb (f N) p (q N)) -> is_lim_seq q t0.
Proof.
  intros Hc Hf Ht Hp Hq.
  assert (cut : forall c, I c -> c <> t0 -> exists e : nat -> R, is_lim_seq e (at_most c t0) /\ forall N, exists v, is_RInt (f N) (q N) c v /\ e N = p + v).
  { intros c Ic Nc. assert (X : forall N, exists e, (is_RInt_gen (fun t => at_most c t * f N t) Fa Fb e) /\ exists v, is_RInt (f N) (q N) c v /\ e = p + v).
    { intros N. destruct (Hq N) as (Iq & Ql & Qr). destruct (move_cut I Fa Fb E (f N) (q N) c _ _ Iq Ic Ql Qr) as (v & Hv & Hl & Hr).
      exists (p + v). split; [now apply (at_most_expectation I Fa Fb E (f N) c (p + v) (1 - p - v))|]. now exists v. }
    set (e := fun N => @RInt_gen R_CompleteNormedModule (fun t => at_most c t * f N t) Fa Fb).
    assert (Ve : forall N y, is_RInt_gen (fun t => at_most c t * f N t) Fa Fb y -> e N = y).
    { intros N y Hy. pose proof (e_Fa _ _ _ E) as PA. pose proof (e_Fb _ _ _ E) as PB. unfold e. now apply (is_RInt_gen_unique (V:=R_CompleteNormedModule)). }
    exists e. split.
    - apply (Hc (at_most c) 1 e); [intros; apply at_most_bound|now apply at_most_continuous|].
      intros N. destruct (X N) as (y & Hy & _). now rewrite (Ve N y Hy).
    - intros N. destruct (X N) as (y & Hy & v & Hv & ->). exists v. split; [exact Hv|]. now apply Ve. }
  apply is_lim_seq_spec. intros eps. pose proof (cond_pos eps) as He.
  assert (U : exists K, forall N, (K <= N)%nat -> q N < t0 + eps).
  { destruct (classic (exists N, t0 + eps <= q N)) as [(N0 & H0)|H0].
    2:{ exists 0%nat. intros N _. apply Rnot_le_lt. intros H. apply H0. now exists N. }
    assert (Ic : I (t0 + eps)) by (apply (e_cvx _ _ _ E t0 (q N0)); [exact Ht|apply Hq|lra]).
    destruct (cut _ Ic) as (e & Le & Ve); [lra|]. unfold at_most in Le. destruct (Rle_dec t0 (t0 + eps)) as [_|C]; [|lra].
    apply is_lim_seq_spec in Le. destruct (Le (mkposreal (1 - p) ltac:(lra))) as (K & HK). exists K. intros N HN.
    specialize (HK N HN). simpl in HK. apply Rabs_def2 in HK. apply Rnot_le_lt. intros H.
    destruct (Ve N) as (v & Hv & Ev). rewrite Ev in HK. apply is_RInt_swap in Hv.
    assert (0 <= opp v); [|unfold opp in *; simpl in *; lra].
    apply (is_RInt_sign (f N) (t0 + eps) (q N)); [exact H| |exact Hv]. intros t Hx. apply Hf. apply (e_cvx _ _ _ E (t0 + eps) (q N)); [exact Ic|apply Hq|lra]. }
  assert (L : exists K, forall N, (K <= N)%nat -> t0 - eps < q N).
  { destruct (classic (exists N, q N <= t0 - eps)) as [(N0 & H0)|H0].
    2:{ exists 0%nat. intros N _. apply Rnot_le_lt. intros H. apply H0. now exists N. }
    assert (Ic : I (t0 - eps)) by (apply (e_cvx _ _ _ E (q N0) t0); [apply Hq|exact Ht|lra]).
    destruct (cut _ Ic) as (e & Le & Ve); [lra|]. unfold at_most in Le. destruct (Rle_dec t0 (t0 - eps)) as [C|_]; [lra|].
    apply is_lim_seq_spec in Le. destruct (Le (mkposreal p ltac:(lra))) as (K & HK). exists K. intros N HN.
    specialize (HK N HN). simpl in HK. apply Rabs_def2 in HK. apply Rnot_le_lt. intros H.
    destruct (Ve N) as (v & Hv & Ev). rewrite Ev in HK.
    assert (0 <= v); [|lra].
    apply (is_RInt_sign (f N) (q N) (t0 - eps)); [exact H| |exact Hv]. intros t Hx. apply Hf. apply (e_cvx _ _ _ E (q N) (t0 - eps)); [apply Hq|exact Ic|lra]. }
  destruct U as (K1 & H1), L as (K2 & H2). exists (Nat.max K1 K2). intros N HN.
  apply Rabs_def1; [specialize (H1 N (PeanoNat.Nat.le_trans _ _ _ (PeanoNat.Nat.le_max_l _ _) HN))|specialize (H2 N (PeanoNat.Nat.le_trans _ _ _ (PeanoNat.Nat.le_max_r _ _) HN))]; lra.
Qed.

Lemma id_within (F : (R -> Prop) -> Prop) (x : R) : filter_le F (locally x) -> filterlim (fun t => t) F (locally x).
Proof. intros H P HP. exact (H P HP). Qed.

Lemma unit_quantile (p : R) : 0 < p < 1 -> is_quantile (at_right 0) (at_left 1) (fun _ => 1) p p.
Proof.
  intros Hp. assert (Eo := ends_open 0 1 Rlt_0_1). split.
  - replace (is_RInt_gen (fun _ => 1) (at_right 0) (at_point p) p) with (is_RInt_gen (fun _ => 1) (at_right 0) (at_point p) (p - 0)) by (now rewrite Rminus_0_r).
    apply (is_RInt_gen_FTC _ _ _ (ends_left _ _ _ Eo p Hp) (fun t => t)).
    + intros t _. auto_derive; [exact I|ring].
    + intros t _. apply continuous_const.
    + apply id_within. apply filter_le_within.
    + intros P HP. exact (locally_singleton _ _ HP).
  - apply (is_RInt_gen_FTC _ _ _ (ends_right _ _ _ Eo p Hp) (fun t => t)).
    + intros t _. auto_derive; [exact I|ring].
    + intros t _. apply continuous_const.
    + intros P HP. exact (locally_singleton _ _ HP).
    + apply id_within. apply filter_le_within.
Qed.
