(** Proofs about the programs of the documentation. *)

From Coq Require Import ZArith Bool String List Reals Lra Lia.
From Verif Require Import Model.Num Model.Py Model.Dists Model.Models Model.Table Model.NdArray Model.PyNum.
From Verif Require Import Model.Validate Model.ByName Model.DocPrograms Spec.Shapes Spec.DocPrograms Proofs.Shapes.
Import ListNotations.
Open Scope R_scope.

Lemma argmin_from_spec l : forall best at_ pre,
  (at_ < length pre)%nat -> nth at_ pre 0 = best ->
  (forall j, (j < length pre)%nat -> best <= nth j pre 0) -> (forall j, (j < at_)%nat -> best < nth j pre 0) ->
  let i := argmin_from best at_ (length pre) l in
  (i < length (pre ++ l))%nat /\
  (forall j, (j < length (pre ++ l))%nat -> nth i (pre ++ l) 0 <= nth j (pre ++ l) 0) /\
  (forall j, (j < i)%nat -> nth i (pre ++ l) 0 < nth j (pre ++ l) 0).
Proof.
  induction l as [|x l IH]; intros best at_ pre Ha Hb Hmin Hfirst; simpl.
  - rewrite app_nil_r. rewrite Hb. auto.
  - replace (pre ++ x :: l) with ((pre ++ [x]) ++ l) by (rewrite <- app_assoc; reflexivity).
    assert (Lp : length (pre ++ [x]) = S (length pre)) by (rewrite app_length; simpl; lia).
    rewrite <- Lp. destruct (Rlt_dec x best) as [H|H].
    + assert (N : forall j, (j < length pre)%nat -> nth j (pre ++ [x]) 0 = nth j pre 0) by (intros; now rewrite app_nth1).
      assert (M : nth (length pre) (pre ++ [x]) 0 = x).
      { rewrite app_nth2 by lia. now rewrite Nat.sub_diag. }
      apply IH; auto; try lia.
      * intros j Hj. rewrite Lp in Hj. destruct (Nat.eq_dec j (length pre)) as [->|D].
        { rewrite app_nth2 by lia. rewrite Nat.sub_diag. simpl. lra. }
        rewrite N by lia. specialize (Hmin j ltac:(lia)). lra.
      * intros j Hj. rewrite N by lia. specialize (Hmin j ltac:(lia)). lra.
    + assert (N : forall j, (j < length pre)%nat -> nth j (pre ++ [x]) 0 = nth j pre 0) by (intros; now rewrite app_nth1).
      apply IH; try lia.
      * now rewrite N.
      * intros j Hj. rewrite Lp in Hj. destruct (Nat.eq_dec j (length pre)) as [->|D].
        { rewrite app_nth2 by lia. rewrite Nat.sub_diag. simpl. lra. }
        rewrite N by lia. apply Hmin. lia.
      * intros j Hj. rewrite N by lia. now apply Hfirst.
Qed.

Lemma argmin_spec l : l <> [] ->
  (argmin l < length l)%nat /\ (forall j, (j < length l)%nat -> nth (argmin l) l 0 <= nth j l 0) /\
  (forall j, (j < argmin l)%nat -> nth (argmin l) l 0 < nth j l 0).
Proof.
  destruct l as [|x l]; [congruence|]. intros _. apply (argmin_from_spec l x 0%nat [x]); simpl; auto.
  - intros [|j] H; [lra|lia].
  - intros j H; lia.
Qed.

Lemma at_only_at n g v i : (i < n)%nat -> (g < n)%nat -> at_index [i] (only_at n g v) = if Nat.eqb i g then v else 0.
Proof.
  intros Hi Hg. unfold at_index, only_at. simpl. destruct (Nat.eqb_spec n 1) as [->|D]; simpl; auto.
  replace i with 0%nat by lia. replace g with 0%nat by lia. reflexivity.
Qed.

Lemma at_1d (a : nd R) k i : nd_shape a = [k] -> (i < k)%nat -> at_index [i] a = nd_entry a [i].
Proof.
  intros S H. unfold at_index. rewrite S. simpl. destruct (Nat.eqb_spec k 1) as [->|D]; auto.
  replace i with 0%nat by lia. reflexivity.
Qed.

Section Thompson.
Variable arctan2 : R -> R -> R.
Variable k : nat.
Hypothesis Hk : (1 <= k)%nat.
Variable G : Type.
Variable draw_estimate : nd R * nd R -> G -> (nat -> R) * G.
Variable draw_wait : nat -> G -> R * G.

Lemma update_1d x n a b : nd_shape x = [k] -> nd_shape n = [k] -> nd_shape a = [k] -> nd_shape b = [k] ->
  run_nd (Ufuncs_R arctan2) F_exponential_gamma [x; n; a; b]
  = Ok [mkNd [k] (fun i => at_index i a + at_index i x); mkNd [k] (fun i => at_index i b + at_index i n)].
Proof.
  intros Sx Sn Sa Sb. unfold run_nd. simpl. unfold map2. rewrite Sx, Sn, Sa, Sb.
  unfold broadcast_shapes. simpl. rewrite Nat.eqb_refl. reflexivity.
Qed.

Lemma thompson_invariant total g :
  exists alpha beta g' steps, thompson arctan2 k G draw_estimate draw_wait total g = Ok (alpha, beta, g', steps) /\
  nd_shape alpha = [k] /\ nd_shape beta = [k] /\ length steps = total /\ Forall (chose_smallest k) steps /\
  forall i, (i < k)%nat -> at_index [i] beta = 1 + INR (times_chosen i steps) /\ at_index [i] alpha = 1 + total_wait i steps.
Proof.
  induction total as [|total (alpha & beta & g' & steps & E & Sa & Sb & L & C & I)].
  - simpl. do 4 eexists. split; [reflexivity|]. repeat split; auto. 
    + unfold at_index, times_chosen. simpl. lra.
    + unfold at_index, total_wait. simpl. lra.
  - simpl. rewrite E. cbn [bind]. unfold thompson_step.
    destruct (draw_estimate (alpha, beta) g') as [sample g1].
    set (l := map sample (seq 0 k)). assert (Ll : length l = k) by (unfold l; now rewrite map_length, seq_length).
    destruct (argmin_spec l) as (A1 & A2 & A3). { intros N. rewrite N in Ll. simpl in Ll. lia. }
    rewrite Ll in *. set (c := argmin l) in *. destruct (draw_wait c g1) as [w g2].
    cbn [fst snd]. rewrite update_1d by (reflexivity || assumption). cbn [bind].
    do 4 eexists. split; [reflexivity|]. split; [reflexivity|]. split; [reflexivity|].
    split; [simpl; now rewrite L|]. split.
    { constructor; auto. split; [exact A1|]. split; [exact Ll|]. split; [exact A2|exact A3]. }
    intros i Hi. destruct (I i Hi) as [Ib Ia].
    rewrite !(at_1d _ k i) by (reflexivity || assumption). cbn [nd_entry]. rewrite Ib, Ia, !at_only_at by assumption.
    unfold times_chosen, total_wait in *. cbn [filter s_group]. rewrite (Nat.eqb_sym c i).
    destruct (Nat.eqb i c); cbn [length map fold_right s_wait]; rewrite ?S_INR; split; lra.
Qed.

Lemma sum_to_ext f h n : (forall i, (i < n)%nat -> f i = h i) -> sum_to f n = sum_to h n.
Proof. intros H. induction n; simpl; auto. rewrite IHn by (intros; apply H; lia). rewrite H by lia. reflexivity. Qed.

Lemma sum_indicator c n : sum_to (fun i => if Nat.eqb c i then 1 else 0) n = if (c <? n)%nat then 1 else 0.
Proof.
  induction n; simpl; auto. rewrite IHn. destruct (Nat.eqb_spec c n) as [->|D].
  - rewrite Nat.ltb_irrefl. destruct (Nat.ltb_spec n (S n)); [lra|lia].
  - destruct (Nat.ltb_spec c n), (Nat.ltb_spec c (S n)); lra || lia.
Qed.

Lemma sum_to_plus f h n : sum_to (fun i => f i + h i) n = sum_to f n + sum_to h n.
Proof. induction n; simpl; [lra|]. rewrite IHn. lra. Qed.

Lemma sum_chosen steps : Forall (chose_smallest k) steps ->
  sum_to (fun i => INR (times_chosen i steps)) k = INR (length steps).
Proof.
  intros H. induction H as [|s steps [Hs _] _ IH].
  - simpl. unfold times_chosen. simpl. clear. induction k; simpl; lra.
  - cbn [length]. rewrite S_INR, <- IH. rewrite <- (Rplus_comm 1).
    assert (I : sum_to (fun i => if Nat.eqb (s_group s) i then 1 else 0) k = 1).
    { rewrite sum_indicator. apply Nat.ltb_lt in Hs. now rewrite Hs. }
    rewrite <- I at 1. rewrite <- sum_to_plus. apply sum_to_ext. intros i _. unfold times_chosen. cbn [filter].
    destruct (Nat.eqb (s_group s) i); cbn [length]; rewrite ?S_INR; lra.
Qed.

Lemma thompson_ok total g :
  exists alpha beta g' steps, thompson arctan2 k G draw_estimate draw_wait total g = Ok (alpha, beta, g', steps) /\
  nd_shape alpha = [k] /\ nd_shape beta = [k] /\ length steps = total /\ Forall (chose_smallest k) steps /\
  (forall i, (i < k)%nat -> at_index [i] beta - 1 = INR (times_chosen i steps) /\
     at_index [i] alpha / at_index [i] beta = (1 + total_wait i steps) / (1 + INR (times_chosen i steps))) /\
  sum_to (fun i => at_index [i] beta - 1) k = INR total.
Proof.
  destruct (thompson_invariant total g) as (alpha & beta & g' & steps & E & Sa & Sb & L & C & I).
  exists alpha, beta, g', steps. repeat split; auto.
  - destruct (I i H) as [-> _]. lra.
  - destruct (I i H) as [-> ->]. reflexivity.
  - rewrite <- L, <- sum_chosen by exact C. apply sum_to_ext. intros i Hi. destruct (I i Hi) as [-> _]. lra.
Qed.
End Thompson.

(** ** docs/index.md *)

Lemma one_by_one_params l : forall prior,
  Beta_alpha (one_by_one l prior) = Beta_alpha prior + fold_right Rplus 0 l /\
  Beta_beta (one_by_one l prior) = Beta_beta prior + (INR (length l) - fold_right Rplus 0 l).
Proof.
  induction l as [|x l IH]; intros prior. { simpl. split; lra. }
  unfold one_by_one in *. cbn [fold_left]. destruct (IH (bernoulli_beta x prior)) as [-> ->].
  cbn [length fold_right]. rewrite S_INR. simpl. split; lra.
Qed.

Lemma fold_left_right l : forall a, fold_left Rplus l a = a + fold_right Rplus 0 l.
Proof. induction l as [|x l IH]; intros a; simpl; [lra|]. rewrite IH. lra. Qed.

Lemma binomial_1d arctan2 t n x a b : nd_shape n = [t] -> nd_shape x = [t] ->
  run_nd (Ufuncs_R arctan2) F_binomial_beta [n; x; scalar a; scalar b]
  = Ok [mkNd [t] (fun i => a + at_index i x); mkNd [t] (fun i => b + at_index i (mkNd [t] (fun j => at_index j n - at_index j x)))].
Proof.
  intros Sn Sx. unfold run_nd. simpl. unfold map2. rewrite Sn, Sx. unfold broadcast_shapes. simpl. rewrite Nat.eqb_refl. reflexivity.
Qed.

Lemma cumsum_entry samples i : (i < length samples)%nat -> at_index [i] (cumsum samples) = fold_right Rplus 0 (firstn (S i) samples).
Proof.
  intros H. rewrite (at_1d _ (length samples) i) by (reflexivity || assumption). unfold cumsum. cbn [nd_entry nth].
  rewrite fold_left_right. lra.
Qed.
Lemma arange_entry t i : (i < t)%nat -> at_index [i] (arange1 t) = INR (S i).
Proof.
  intros H. rewrite (at_1d _ t i) by (reflexivity || assumption). unfold arange1. cbn [nd_entry nth]. now rewrite S_INR.
Qed.

Lemma failures_sum (l : list R) : fold_right Rplus 0 (map (fun x => 1 - x) l) = INR (length l) - fold_right Rplus 0 l.
Proof. induction l as [|x l IH]; [simpl; lra|]. cbn [map fold_right length]. rewrite IH, S_INR. lra. Qed.

Lemma running_ok arctan2 samples prior :
  exists alpha beta, running_posterior arctan2 samples prior = Ok [alpha; beta] /\
  nd_shape alpha = [length samples] /\ nd_shape beta = [length samples] /\
  forall i, (i < length samples)%nat ->
  at_index [i] alpha = Beta_alpha prior + fold_right Rplus 0 (firstn (S i) samples) /\
  at_index [i] beta = Beta_beta prior + fold_right Rplus 0 (map (fun x => 1 - x) (firstn (S i) samples)) /\
  mkBeta (at_index [i] alpha) (at_index [i] beta) = one_by_one (firstn (S i) samples) prior.
Proof.
  unfold running_posterior. rewrite (binomial_1d arctan2 (length samples)) by reflexivity.
  do 2 eexists. split; [reflexivity|]. split; [reflexivity|]. split; [reflexivity|].
  intros i Hi. rewrite !(at_1d (mkNd _ _) (length samples) i) by (reflexivity || assumption). cbn [nd_entry].
  rewrite (at_1d (mkNd _ _) (length samples) i) by (reflexivity || assumption). cbn [nd_entry].
  rewrite cumsum_entry, arange_entry by assumption. rewrite failures_sum.
  destruct (one_by_one_params (firstn (S i) samples) prior) as [Ea Eb].
  rewrite firstn_length, Nat.min_l in Eb |- * by lia. split; [reflexivity|]. split; [reflexivity|].
  destruct (one_by_one (firstn (S i) samples) prior) as [a b]. cbn [Beta_alpha Beta_beta] in Ea, Eb. now rewrite Ea, Eb.
Qed.

(** ** scripts/post-engagement.py *)

Lemma post_engagement_raises {A} {NA : Num A} (U : Ufuncs A) rate impressions reactions :
  exists msg, snd (post_engagement U rate impressions reactions) = Raise (ValueError msg).
Proof. eexists. reflexivity. Qed.

Lemma post_engagement_repaired (arctan2 : R -> R -> R) rate impressions reactions : 0 < rate -> 0 < impressions ->
  let prior_impressions := / rate in
  exists alpha beta, snd (post_engagement_as "prior" (Ufuncs_R arctan2) rate impressions reactions) =
    Ok (OInst cBeta [cContinuousPlotDistMixin; cPlotDistMixin; cSliceMixin]
        (VDist [("alpha"%string, ANum alpha); ("beta"%string, ANum beta)])) /\
  alpha = 1 + reactions /\ alpha + beta = prior_impressions + impressions /\
  alpha / (alpha + beta) = (prior_impressions * rate + impressions * (reactions / impressions)) / (prior_impressions + impressions).
Proof.
  intros Hr Hi pi. assert (Hp : 0 < pi) by now apply Rinv_0_lt_compat.
  exists (1 + reactions), (1 * (1 / rate - 1) + (impressions - reactions)). split. reflexivity.
  assert (E : 1 + reactions + (1 * (1 / rate - 1) + (impressions - reactions)) = pi + impressions) by (unfold pi; field; lra).
  split. reflexivity. split. exact E. rewrite E. f_equal. unfold pi. field. lra.
Qed.
