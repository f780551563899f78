(** The predictives of the Dirichlet models with unlimited data. *)

From Coq Require Import Reals Lra Lia ZArith.
From Coquelicot Require Import Coquelicot.
From Verif Require Import Model.Num Model.Py Model.NdArray Model.DirichletModel.
From Verif Require Import Spec.Special Spec.Densities Spec.Bayes Spec.Moments Spec.Simplex Spec.Containers Spec.Prequential Spec.Calibration
  Spec.SimplexMoments.
From Verif Require Import Analysis.Improper Analysis.GammaBeta Analysis.GammaFacts Proofs.Pdfs Proofs.Dirichlet Proofs.Moments
  Proofs.SimplexMoments Proofs.DirichletMore.
From Coq Require Import List.
Import ListNotations.
Open Scope R_scope.

Section Limits.
Variable A : nat -> R.
Hypotheses (HA : forall N, 0 < A N) (Hi : is_lim_seq A p_infty).

Lemma over_lim c : is_lim_seq (fun N => c / A N) 0.
Proof.
  replace (Finite 0) with (Rbar_mult c (Rbar_inv p_infty)) by (simpl; f_equal; ring). unfold Rdiv.
  apply is_lim_seq_scal_l, is_lim_seq_inv; [exact Hi|discriminate].
Qed.

Lemma rising_lim (a : nat -> R) (q : R) k : is_lim_seq (fun N => a N / A N) q -> is_lim_seq (fun N => rising (a N) k / A N ^ k) (q ^ k).
Proof.
  intros Ha. induction k as [|k IH]; cbn [rising pow].
  - apply is_lim_seq_ext with (fun _ => 1); [intros; field|apply is_lim_seq_const].
  - apply is_lim_seq_ext with (fun N => (rising (a N) k / A N ^ k) * (a N / A N + INR k / A N)).
    + intros N. pose proof (HA N). pose proof (pow_lt _ k H). field. lra.
    + replace (q * q ^ k) with (q ^ k * (q + 0)) by ring. apply is_lim_seq_mult'; [exact IH|].
      apply is_lim_seq_plus'; [exact Ha|apply over_lim].
Qed.

Definition factor (q : R * nat) : R := rising (fst q) (snd q) / INR (fact (snd q)).
Lemma factors_lim x : forall (al : nat -> list R) p, (forall N, length (al N) = length x) -> length p = length x ->
  (forall i, (i < length x)%nat -> is_lim_seq (fun N => nth i (al N) 0 / A N) (nth i p 0)) ->
  is_lim_seq (fun N => prodR (map factor (combine (al N) x)) / A N ^ sumN x)
    (/ prodR (map (fun k => INR (fact k)) x) * prodR (map (fun q => fst q ^ snd q) (combine p x))).
Proof.
  induction x as [|k x IH]; intros al p La Lp H.
  - destruct p; [|discriminate]. cbn. apply is_lim_seq_ext with (fun _ => 1).
    + intros N. specialize (La N). destruct (al N); [|discriminate]. cbn. field.
    + replace (/ 1 * 1) with 1 by field. apply is_lim_seq_const.
  - destruct p as [|q p]; [discriminate|]. cbn [length] in *. assert (Hk : 0 < INR (fact k)) by apply INR_fact_lt_0.
    assert (HP : 0 < prodR (map (fun k => INR (fact k)) x)).
    { clear. induction x; cbn; [lra|]. apply Rmult_lt_0_compat; [apply INR_fact_lt_0|exact IHx]. }
    apply is_lim_seq_ext with (fun N => (rising (hd 0 (al N)) k / A N ^ k * / INR (fact k)) * (prodR (map factor (combine (tl (al N)) x)) / A N ^ sumN x)).
    + intros N. specialize (La N). destruct (al N) as [|b l]; [discriminate|]. cbn [hd tl combine map].
      change (sumN (k :: x)) with (k + sumN x)%nat. rewrite pow_add.
      pose proof (HA N). pose proof (pow_lt _ k H0). pose proof (pow_lt _ (sumN x) H0).
      change (prodR (factor (b, k) :: map factor (combine l x))) with (factor (b, k) * prodR (map factor (combine l x))).
      change (factor (b, k)) with (rising b k / INR (fact k)). field. lra.
    + cbn [combine map]. change (prodR (INR (fact k) :: map (fun k => INR (fact k)) x)) with (INR (fact k) * prodR (map (fun k => INR (fact k)) x)).
      change (prodR (fst (q, k) ^ snd (q, k) :: map (fun q => fst q ^ snd q) (combine p x))) with (q ^ k * prodR (map (fun q => fst q ^ snd q) (combine p x))).
      replace (/ (INR (fact k) * prodR (map (fun k => INR (fact k)) x)) * (q ^ k * prodR (map (fun q => fst q ^ snd q) (combine p x))))
        with ((q ^ k * / INR (fact k)) * (/ prodR (map (fun k => INR (fact k)) x) * prodR (map (fun q => fst q ^ snd q) (combine p x)))) by (field; lra).
      apply is_lim_seq_mult'.
      * apply is_lim_seq_mult'; [|apply is_lim_seq_const]. apply rising_lim. apply is_lim_seq_ext with (fun N => nth 0 (al N) 0 / A N).
        { intros N. destruct (al N); reflexivity. } apply (H 0%nat). lia.
      * apply IH; [intros N; specialize (La N); destruct (al N); cbn in *; lia|lia|].
        intros i Hl. apply is_lim_seq_ext with (fun N => nth (S i) (al N) 0 / A N).
        { intros N. destruct (al N); [destruct i|]; reflexivity. } apply (H (S i)). lia.
Qed.
End Limits.

Lemma dm_lim (al : nat -> list R) p x : (forall N, length (al N) = length x) -> length p = length x -> x <> [] ->
  (forall N, Forall (fun a => 0 < a) (al N)) -> is_lim_seq (fun N => sumR (al N)) p_infty ->
  (forall i, (i < length x)%nat -> is_lim_seq (fun N => nth i (al N) 0 / sumR (al N)) (nth i p 0)) ->
  is_lim_seq (fun N => dirichlet_multinomial_pmf (al N) (sumN x) x) (multinomial_pmf p x).
Proof.
  intros La Lp Nx Fa Hi H.
  assert (HA : forall N, 0 < sumR (al N)).
  { intros N. apply sumR_pos; [exact (Fa N)|]. specialize (La N). destruct (al N), x; try discriminate; congruence. }
  pose proof (factors_lim _ HA Hi x al p La Lp H) as F. pose proof (rising_lim _ HA Hi (fun N => sumR (al N)) 1 (sumN x)) as Rs.
  assert (R1 : is_lim_seq (fun N => sumR (al N) / sumR (al N)) 1).
  { apply is_lim_seq_ext with (fun _ => 1); [|apply is_lim_seq_const]. intros N. specialize (HA N). field. lra. }
  specialize (Rs R1). rewrite pow1 in Rs.
  apply is_lim_seq_ext with (fun N => INR (fact (sumN x)) * / (rising (sumR (al N)) (sumN x) / sumR (al N) ^ sumN x)
     * (prodR (map factor (combine (al N) x)) / sumR (al N) ^ sumN x)).
  - intros N. specialize (HA N). pose proof (pow_lt _ (sumN x) HA). pose proof (rising_pos _ (sumN x) HA) as HR.
    unfold dirichlet_multinomial_pmf. rewrite Nat.eqb_refl, Gamma_fun_fact, (Rplus_comm (INR _)), Gamma_fun_rising by exact HA.
    pose proof (Gamma_fun_pos _ HA) as HG.
    rewrite (map_ext_in (fun q => Gamma_fun (INR (snd q) + fst q) / (Gamma_fun (fst q) * Gamma_fun (INR (snd q) + 1))) factor).
    + field. lra.
    + intros [a k] Hq. cbn [fst snd]. assert (Ha : 0 < a) by (specialize (Fa N); rewrite Forall_forall in Fa; apply Fa; eapply in_combine_l; eauto).
      rewrite Gamma_fun_fact, (Rplus_comm (INR k)), Gamma_fun_rising by exact Ha. unfold factor. cbn [fst snd].
      pose proof (Gamma_fun_pos _ Ha). assert (0 < INR (fact k)) by apply INR_fact_lt_0. field. lra.
  - unfold multinomial_pmf, multinomial_coef.
    replace (INR (fact (sumN x)) / prodR (map (fun k => INR (fact k)) x) * prodR (map (fun q => fst q ^ snd q) (combine p x)))
      with (INR (fact (sumN x)) * / 1 * (/ prodR (map (fun k => INR (fact k)) x) * prodR (map (fun q => fst q ^ snd q) (combine p x)))).
    + apply is_lim_seq_mult'; [|exact F]. apply is_lim_seq_mult'; [apply is_lim_seq_const|].
      apply (is_lim_seq_inv _ 1); [exact Rs|]. intros E. injection E as E. lra.
    + rewrite Rinv_1. unfold Rdiv. ring.
Qed.

Section Models.
Variables (n : nat) (a : nd R) (X : nat -> list nat) (out : nat -> nd R) (p : list R).
Hypotheses (Sh : nd_shape a = [S n]) (F : Forall (fun v => 0 < v) (flat (S n) a)).
Hypothesis HX : forall N, length (X N) = S n /\ sumN (X N) = N.
Hypothesis HO : forall N, multinomial_dirichlet (CArr (as_array (map INR (X N)))) (CArr a) = Ok (mkDirichlet (OVal (CArr (out N)))).
Hypotheses (Lp : length p = S n) (Hp : forall i, (i <= n)%nat -> is_lim_seq (fun N => INR (nth i (X N) 0%nat) / INR N) (nth i p 0)).

Lemma multinomial_predictive_limit x : length x = S n ->
  is_lim_seq (fun N => let P := multinomial_dirichlet_predictive (Some (INR (sumN x))) (mkDirichlet (OVal (CArr (out N)))) in
      dirichlet_multinomial_pmf (alphas n (DirichletMultinomial_alpha P)) (Rnat (DirichletMultinomial_n P)) x)
    (multinomial_pmf p x).
Proof.
  intros Lx. set (al := flat (S n) a) in *. assert (La : length al = S n) by apply flat_len.
  assert (EO : forall N, alphas n (OVal (CArr (out N))) = update al (X N)).
  { intros N. destruct (multinomial_flat n a (X N) Sh (proj1 (HX N))) as (o & E & So & Eo). rewrite HO in E. injection E as ->.
    rewrite flat_alphas by exact So. exact Eo. }
  pose proof (dir_sum_pos n al La F) as HA.
  assert (ES : forall N, sumR (update al (X N)) = sumR al + INR N).
  { intros N. rewrite update_sum by (destruct (HX N); lia). now rewrite (proj2 (HX N)). }
  apply is_lim_seq_ext with (fun N => dirichlet_multinomial_pmf (update al (X N)) (sumN x) x).
  - intros N. cbv zeta. change (DirichletMultinomial_n _) with (INR (sumN x)). rewrite Rnat_INR.
    change (alphas n _) with (alphas n (OVal (CArr (out N)))). now rewrite EO.
  - apply dm_lim.
    + intros N. rewrite update_len; destruct (HX N); lia.
    + lia.
    + intros ->. discriminate.
    + intros N. now apply update_pos.
    + apply is_lim_seq_ext with (fun N => sumR al + INR N); [intros N; now rewrite ES|].
      apply is_lim_seq_le_p_loc with INR; [|exact is_lim_seq_INR]. exists 0%nat. intros N _. lra.
    + intros i Hi. apply is_lim_seq_ext with (fun N => (nth i al 0 + INR (nth i (X N) 0%nat)) / (sumR al + INR N)).
      * intros N. rewrite ES, update_nth by (destruct (HX N); lia). reflexivity.
      * apply average_lim, Hp. lia.
Qed.

(** one more observation, category k *)
Lemma categorical_predictive_limit k : (k <= n)%nat ->
  is_lim_seq (fun N => let P := categorical_dirichlet_predictive None (mkDirichlet (OVal (CArr (out N)))) in
      dirichlet_multinomial_pmf (alphas n (DirichletMultinomial_alpha P)) (Rnat (DirichletMultinomial_n P)) (counts n [k]))
    (categorical_pmf p k).
Proof.
  intros Hk. assert (C : counts n [k] = map (fun j => if Nat.eqb k j then 1%nat else 0%nat) (seq 0 (S n))).
  { unfold counts. apply map_ext. intros j. cbn. destruct (Nat.eq_dec k j) as [->|D]; [now rewrite Nat.eqb_refl|].
    apply Nat.eqb_neq in D. now rewrite D. }
  assert (La : length (flat (S n) a) = S n) by apply flat_len. pose proof (dir_sum_pos n _ La F) as HA.
  apply is_lim_seq_ext with (fun N => (nth k (flat (S n) a) 0 + INR (nth k (X N) 0%nat)) / (sumR (flat (S n) a) + INR N)).
  - intros N. cbv zeta. change (Rnat _) with (Rnat 1). replace (Rnat 1) with 1%nat by (symmetry; exact (Rnat_INR 1)).
    destruct (multinomial_flat n a (X N) Sh (proj1 (HX N))) as (o & E & So & Eo). rewrite HO in E. injection E as ->.
    change (alphas n _) with (alphas n (OVal (CArr o))). rewrite flat_alphas, Eo, C by exact So.
    destruct (HX N) as [L S]. rewrite (dm_one n), update_nth, update_sum, S; try lia; try reflexivity.
    + rewrite update_len; lia.
    + now apply update_pos.
  - apply average_lim, Hp, Hk.
Qed.
End Models.

Lemma halves_case :
  let X N := [N - N / 2; N / 2]%nat in (forall N, length (X N) = 2%nat /\ sumN (X N) = N) /\
  is_lim_seq (fun N => INR (nth 0 (X N) 0%nat) / INR N) (/ 2) /\ is_lim_seq (fun N => INR (nth 1 (X N) 0%nat) / INR N) (/ 2) /\
  multinomial_pmf [/ 2; / 2] [1; 1]%nat = / 2.
Proof.
  assert (B : forall N, (N <= 2 * (N / 2) + 1)%nat /\ (2 * (N / 2) <= N)%nat).
  { intros N. pose proof (Nat.div_mod N 2 ltac:(lia)). pose proof (Nat.mod_upper_bound N 2 ltac:(lia)). lia. }
  assert (L : forall c, is_lim_seq (fun N => / 2 + c / INR N) (/ 2)).
  { intros c. replace (Finite (/ 2)) with (Finite (/ 2 + 0)) by (f_equal; ring). apply is_lim_seq_plus'; [apply is_lim_seq_const|].
    replace (Finite 0) with (Rbar_mult c (Rbar_inv p_infty)) by (simpl; f_equal; ring). unfold Rdiv.
    apply is_lim_seq_scal_l, is_lim_seq_inv; [exact is_lim_seq_INR|discriminate]. }
  cbv zeta. split; [|split; [|split]].
  - intros N. split; [reflexivity|]. destruct (B N). cbn [sumN fold_right]. unfold sumN. simpl fold_right. lia.
  - apply is_lim_seq_le_le_loc with (fun N => / 2 + 0 / INR N) (fun N => / 2 + 1 / INR N); [|apply L|apply L].
    exists 1%nat. intros N HN. cbn [nth]. destruct (B N) as [B1 B2]. revert B1 B2. generalize (N / 2)%nat. intros h B1 B2. assert (hN : (h <= N)%nat) by lia. assert (0 < INR N) by (apply lt_0_INR; lia).
    apply le_INR in B1, B2. rewrite plus_INR, !mult_INR in *. change (INR 2) with 2 in *; change (INR 1) with 1 in *. rewrite minus_INR by exact hN.
    split; apply (Rmult_le_reg_r (INR N)); try lra; unfold Rdiv; rewrite !Rmult_plus_distr_r, !Rmult_assoc, Rinv_l by lra; lra.
  - apply is_lim_seq_le_le_loc with (fun N => / 2 + -1 / INR N) (fun N => / 2 + 0 / INR N); [|apply L|apply L].
    exists 1%nat. intros N HN. cbn [nth]. destruct (B N) as [B1 B2]. revert B1 B2. generalize (N / 2)%nat. intros h B1 B2. assert (hN : (h <= N)%nat) by lia. assert (0 < INR N) by (apply lt_0_INR; lia).
    apply le_INR in B1, B2. rewrite plus_INR, !mult_INR in *. change (INR 2) with 2 in *; change (INR 1) with 1 in *.
    split; apply (Rmult_le_reg_r (INR N)); try lra; unfold Rdiv; rewrite !Rmult_plus_distr_r, !Rmult_assoc, Rinv_l by lra; lra.
  - unfold multinomial_pmf, multinomial_coef, prodR, sumN. simpl. field.
Qed.
