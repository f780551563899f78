(** Posterior parameters stay in the valid domain: C30. *)

From Coq Require Import Reals Lra Psatz ZArith Lia.
From Coquelicot Require Import Coquelicot.
From Verif Require Import Model.Num Model.Py Model.Dists Model.ScipyDist Model.Models Spec.Special Spec.Densities Spec.Bayes Spec.Joint Spec.History.
From Verif Require Import Analysis.RealAux Proofs.Pdfs Proofs.Conj Proofs.Joint Proofs.Proportional Proofs.Seq.
From Coq Require Import List.
Import ListNotations.
Open Scope R_scope.

Lemma sumR_cons x l : sumR (x :: l) = x + sumR l.
Proof. reflexivity. Qed.

Lemma sumR_nonneg l : Forall (fun x => 0 <= x) l -> 0 <= sumR l.
Proof. induction 1; simpl; lra. Qed.

Lemma Forall_map_impl {A B} (f : A -> B) (P : A -> Prop) (Q : B -> Prop) l :
  (forall x, P x -> Q (f x)) -> Forall P l -> Forall Q (map f l).
Proof. induction 2; simpl; auto. Qed.

Lemma sumN_le (data : list (nat * nat)) : Forall (fun o => (snd o <= fst o)%nat) data ->
  (sumN (map snd data) <= sumN (map fst data))%nat.
Proof. induction 1; simpl; lia. Qed.

Lemma sumN_length_le (data : list nat) : Forall (fun k => (1 <= k)%nat) data -> (length data <= sumN data)%nat.
Proof. induction 1; simpl; lia. Qed.

Lemma maxR_pos x l : 0 < x -> 0 < maxR x l.
Proof. intros Hx. induction l; simpl; auto. eapply Rlt_le_trans. exact IHl. apply Rmax_r. Qed.

Lemma sum_ln_ge x_m data : 0 < x_m -> Forall (fun x => x_m <= x) data -> INR (length data) * ln x_m <= sumR (map ln data).
Proof.
  intros Hm. induction 1. simpl; lra. cbn [map length]. rewrite S_INR, sumR_cons.
  assert (ln x_m <= ln x) by (destruct H as [H|H]; [left; now apply ln_increasing|subst; lra]). lra.
Qed.

Lemma sq_dev_sum mu data : sumR (map (fun x => x ^ 2) data) - 2 * mu * sumR data + INR (length data) * mu ^ 2 = sumR (map (fun x => (x - mu) ^ 2) data).
Proof.
  induction data as [|x l IH]. simpl; ring. cbn [map length]. rewrite S_INR, !sumR_cons, <- IH. ring.
Qed.

Lemma sq_sum_nonneg {A} (f : A -> R) l : 0 <= sumR (map (fun x => (f x) ^ 2) l).
Proof. induction l. simpl; lra. cbn [map]. rewrite sumR_cons. pose proof (pow2_ge_0 (f a)). lra. Qed.

Lemma sum_cos_le mu data : Rabs (sumR (map (fun x => cos (x - mu)) data)) <= INR (length data).
Proof.
  induction data as [|x l IH]. simpl. rewrite Rabs_R0; lra. cbn [map length]. rewrite S_INR, sumR_cons.
  eapply Rle_trans. apply Rabs_triang. pose proof (COS_bound (x - mu)). assert (Rabs (cos (x - mu)) <= 1) by (apply Rabs_le; lra). lra.
Qed.

Lemma call_proper {M} (d d' : anyprior M) : call d d' -> proper d -> proper d'.
Proof.
  destruct 1.
  - destruct d as [a b]; simpl. intros [Ha Hb]. pose proof (sumN_le _ H) as Hl. apply le_INR in Hl.
    pose proof (pos_INR (sumN (map snd data))). lra.
  - destruct d as [a b]; simpl. intros [Ha Hb]. apply le_INR in H. pose proof (pos_INR x). simpl in *. lra.
  - destruct d as [a b]; simpl. intros [Ha Hb]. pose proof (pos_INR (length data)). pose proof (pos_INR (sumN data)). nra.
  - destruct d as [a b]; simpl. intros [Ha Hb]. pose proof (pos_INR (length data)). pose proof (pos_INR (sumN data)).
    destruct one_start; simpl in *; try lra. apply sumN_length_le, le_INR in H. lra.
  - destruct d as [k a b]; simpl in *. intros (Hk & Ha & Hb). pose proof (pos_INR x). lra.
  - destruct d as [a b]; simpl. intros [Ha Hb]. pose proof (pos_INR (length data)). pose proof (pos_INR (sumN data)). lra.
  - destruct d as [a b]; simpl. intros [Ha Hb]. pose proof (pos_INR (length data)). apply sumR_nonneg in H. lra.
  - destruct d as [a b]; simpl. intros [Ha Hb]. pose proof (pos_INR (length data)).
    assert (0 <= sumR data). { apply sumR_nonneg. revert H0. apply Forall_impl. intros; lra. } nra.
  - destruct d as [a b]; simpl. intros [Ha Hb]. pose proof (pos_INR (length data)).
    assert (0 <= sumR (map Rinv data)). { apply sumR_nonneg. revert H0. apply Forall_map_impl. intros. left. now apply Rinv_0_lt_compat. } nra.
  - destruct d as [a b]; simpl. intros [Ha Hb]. pose proof (pos_INR (length data)).
    pose proof (sum_ln_ge _ _ H H0). lra.
  - destruct d as [a b']; simpl. intros [Ha Hb]. pose proof (pos_INR (length data)).
    assert (0 <= sumR (map (fun x => Rpower x b) data)). { apply sumR_nonneg. revert H0. apply Forall_map_impl. intros. apply Rpower_nonneg. } lra.
  - intros Hp. apply nkv_sigma; auto. apply pos_INR.
  - intros Hp. apply nkv_sigma; auto. simpl. apply Rdiv_lt_0_compat; lra. apply pos_INR.
  - pose proof (sq_sum_nonneg (fun x => x - mu) data) as Hsq. cbv beta in Hsq. rewrite <- sq_dev_sum in Hsq.
    pose proof (pos_INR (length data)) as HN.
    destruct d as [[a b]|[nu s2]]; simpl; intros [Ha Hb].
    + simpl in Hsq. split; lra.
    + simpl in Hsq. assert (0 < nu * s2) by nra. split. lra. apply Rdiv_lt_0_compat; lra.
  - intros Hok. destruct (normal_bayes d data H Hok) as (post & E & Hpost & _). rewrite E in H0. injection H0 as <-. exact Hpost.
  - intros Hok. destruct (log_normal_bayes d data H H0 Hok) as (post & E & Hpost & _). rewrite E in H1. injection H1 as <-. exact Hpost.
  - destruct d as [m a]; cbv [proper uniform_pareto Pareto_x_m Pareto_alpha nadd NumR]. intros [Hm Ha]. split.
    + eapply Rlt_le_trans. exact Hm. apply Rmax_l.
    + pose proof (pos_INR (length (x :: data))). lra.
  - destruct d as [p q r s]; simpl. intros (Hp & Hq & Hr & Hs). pose proof (pos_INR (length data)).
    pose proof (prodR_pos _ H). assert (0 <= sumR data). { apply sumR_nonneg. revert H. apply Forall_impl. intros; lra. }
    repeat split; try lra. now apply Rmult_lt_0_compat.
  - destruct d as [p q r]; simpl. intros (Hp & Hq & Hr). pose proof (pos_INR (length data)).
    pose proof (prodR_pos _ H). repeat split; try lra. now apply Rmult_lt_0_compat.
  - destruct d as [p q r]; simpl. intros (Hp & Hq & Hr). pose proof (pos_INR (length data)).
    assert (0 < prodR data). { apply prodR_pos. revert H. apply Forall_impl. intros; lra. }
    assert (0 < prodR (map (fun x => 1 - x) data)). { apply prodR_pos. revert H. apply Forall_map_impl. intros; lra. }
    repeat split; try lra; now apply Rmult_lt_0_compat.
  - destruct d as [c r]; simpl. intros Hr. pose proof (sum_cos_le mu data). eapply Rle_lt_trans. apply Rabs_triang. lra.
  - destruct d as [nu s2]; simpl. intros [Ha Hb]. assert (0 < nu * s2) by nra. lra.
  - destruct d as [a b]; simpl. intros [Ha Hb]. split. lra. apply Rdiv_lt_0_compat; lra.
Qed.

Lemma history_proper {M} (d d' : anyprior M) : history d d' -> proper d -> proper d'.
Proof. induction 1; auto. intros. apply IHhistory. eapply call_proper; eauto. Qed.

(** von_mises_known_concentration leaves the domain: a negative concentration. *)
Lemma von_mises_known_concentration_negative (arctan2 : R -> R -> R) :
  VonMisesKnownConcentration_a
    (von_mises_known_concentration sin cos arctan2 (cos (- (PI / 2))) (sin (- (PI / 2))) 1 1
       (mkVonMisesKnownConcentration 1 0)) = -1.
Proof. simpl. rewrite sin_neg, sin_PI2, sin_0. ring. Qed.
