(** Regret of predicting with a learned parameter. *)

From Coq Require Import Reals Lra Lia ZArith.
From Coquelicot Require Import Coquelicot.
From Verif Require Import Model.Num Model.Py Model.NdArray Model.DirichletModel Model.Dists Model.ScipyDist Model.Models.
From Verif Require Import Spec.Special Spec.Densities Spec.Bayes Spec.Joint Spec.Simplex Spec.Prequential Spec.Regret.
From Verif Require Import Analysis.Improper Analysis.GammaBeta Analysis.GammaFacts Proofs.Pdfs Proofs.Conj Proofs.Predictive Proofs.Dirichlet Proofs.Prequential Proofs.SimplexMoments.
From Coq Require Import List.
Import ListNotations.
Open Scope R_scope.

(** ** one term of the multinomial theorem *)
Lemma term_le_sum (f : nat -> R) n k : (forall i, 0 <= f i) -> (k <= n)%nat -> f k <= sum_f_R0 f n.
Proof.
  intros Hf. induction n as [|n IH]; intros Hk.
  - replace k with 0%nat by lia. simpl. lra.
  - simpl. destruct (Nat.eq_dec k (S n)) as [->|D].
    + pose proof (cond_pos_sum f n Hf). lra.
    + pose proof (IH ltac:(lia)). pose proof (Hf (S n)). lra.
Qed.

Lemma binomial_term x y k l : 0 <= x -> 0 <= y -> Binomial.C (k + l) k * (x ^ k * y ^ l) <= (x + y) ^ (k + l).
Proof.
  intros Hx Hy. rewrite binomial.
  pose proof (term_le_sum (fun i => Binomial.C (k + l) i * x ^ i * y ^ (k + l - i)) (k + l) k) as T. cbv beta in T.
  replace (k + l - k)%nat with l in T by lia. rewrite <- Rmult_assoc. apply T; [|lia].
  intros i. apply Rmult_le_pos; [apply Rmult_le_pos|]; try (apply pow_le; assumption). left. unfold Binomial.C.
  apply Rdiv_lt_0_compat; [apply INR_fact_lt_0|]. apply Rmult_lt_0_compat; apply INR_fact_lt_0.
Qed.

Lemma fact_sum k l : INR (fact (k + l)) = Binomial.C (k + l) k * (INR (fact k) * INR (fact l)).
Proof.
  unfold Binomial.C. replace (k + l - k)%nat with l by lia. pose proof (INR_fact_lt_0 k). pose proof (INR_fact_lt_0 l). field. lra.
Qed.

Lemma multinomial_le q x : length q = length x -> Forall (fun v => 0 <= v) q ->
  multinomial_pmf q x <= sumR q ^ sumN x /\ 0 <= multinomial_pmf q x.
Proof.
  revert x. induction q as [|a q IH]; intros [|k x] L F; try discriminate.
  - unfold multinomial_pmf, multinomial_coef, prodR, sumN. simpl. lra.
  - inversion F as [|? ? Ha Fq]; subst. destruct (IH x ltac:(simpl in L; lia) Fq) as [I1 I2].
    assert (E : multinomial_pmf (a :: q) (k :: x) = Binomial.C (k + sumN x) k * (a ^ k * multinomial_pmf q x)).
    { unfold multinomial_pmf, multinomial_coef. rewrite sumN_cons, fact_sum. cbn [combine map].
      change (prodR (INR (fact k) :: map (fun k => INR (fact k)) x)) with (INR (fact k) * prodR (map (fun k => INR (fact k)) x)).
      change (prodR (fst (a, k) ^ snd (a, k) :: map (fun q => fst q ^ snd q) (combine q x))) with (a ^ k * prodR (map (fun q => fst q ^ snd q) (combine q x))).
      assert (0 < prodR (map (fun k => INR (fact k)) x)) by (apply prodR_pos, Forall_map, Forall_forall; intros; apply INR_fact_lt_0).
      pose proof (INR_fact_lt_0 k). pose proof (INR_fact_lt_0 (sumN x)). field. lra. }
    assert (HC : 0 < Binomial.C (k + sumN x) k) by (unfold Binomial.C; apply Rdiv_lt_0_compat; [apply INR_fact_lt_0|apply Rmult_lt_0_compat; apply INR_fact_lt_0]).
    assert (Hs : 0 <= sumR q) by now apply sumR_nonneg. assert (Hk : 0 <= a ^ k) by now apply pow_le.
    rewrite E, sumR_cons, sumN_cons. split.
    + eapply Rle_trans; [|apply (binomial_term a (sumR q) k (sumN x) Ha Hs)].
      apply Rmult_le_compat_l; [lra|]. apply Rmult_le_compat_l; [exact Hk|exact I1].
    + apply Rmult_le_pos; [lra|]. now apply Rmult_le_pos.
Qed.

(** ** two outcomes, uniform prior *)
Lemma uniform_evidence (lik : R -> R) K s f : (forall t, lik t = K * (t ^ s * (1 - t) ^ f)) ->
  over1 Fpos0 Fone (fun t => lik t * pdf (Beta_dist (Beta_uninformative : Beta R)) t)
    (K * (INR (fact s) * INR (fact f) / INR (fact (S (s + f))))).
Proof.
  intros E. unfold over1.
  pose proof (is_RInt_gen_Beta (INR s + 1) (INR f + 1)) as B.
  assert (Hs := pos_INR s). assert (Hf := pos_INR f). specialize (B ltac:(lra) ltac:(lra)).
  assert (V : Beta_fun (INR s + 1) (INR f + 1) = INR (fact s) * INR (fact f) / INR (fact (S (s + f)))).
  { rewrite Beta_fun_Gamma by lra. rewrite !Gamma_fun_fact. replace (INR s + 1 + (INR f + 1)) with (INR (S (s + f)) + 1) by (rewrite S_INR, plus_INR; ring).
    now rewrite Gamma_fun_fact. }
  assert (U : Beta_fun 1 1 = 1).
  { rewrite Beta_fun_Gamma by lra. replace (1 + 1) with (INR 1 + 1) by (simpl; ring). rewrite Gamma_fun_fact. replace 1 with (INR 0 + 1) at 1 2 by (simpl; ring).
    rewrite Gamma_fun_fact. simpl. field. }
  rewrite V in B. apply (is_RInt_gen_scal (V:=R_NormedModule) _ K) in B.
  revert B. apply is_RInt_gen_ext.
  exists (fun x => 0 < x < 1) (fun y => 0 < y < 1).
  - exists (mkposreal 1 Rlt_0_1). intros y B0 Hy. unfold ball in B0; simpl in B0; unfold AbsRing_ball, abs, minus, plus, opp in B0; simpl in B0.
    apply Rabs_def2 in B0. lra.
  - exists (mkposreal 1 Rlt_0_1). intros y B0 Hy. unfold ball in B0; simpl in B0; unfold AbsRing_ball, abs, minus, plus, opp in B0; simpl in B0.
    apply Rabs_def2 in B0. lra.
  - intros x y Hx Hy z [Hz1 Hz2]. cbn [fst snd] in *.
    assert (Hz : 0 < z < 1).
    { split; [eapply Rlt_trans; [|exact Hz1]|eapply Rlt_trans; [exact Hz2|]]; unfold Rmin, Rmax; destruct (Rle_dec x y); lra. }
    rewrite E. unfold Beta_dist, Beta_uninformative. cbn [Beta_alpha Beta_beta]. change (nlit 1 : R) with 1.
    rewrite beta_pdf by exact Hz. rewrite U. replace (1 - 1) with 0 by ring. rewrite !Rpower_O by lra.
    replace (INR s + 1 - 1) with (INR s) by ring. replace (INR f + 1 - 1) with (INR f) by ring.
    rewrite !Rpower_pow by lra. match goal with |- scal _ ?v = ?r => change (K * v = r) end. field.
Qed.

Lemma two_outcomes K s f t : 0 <= K -> 0 <= t <= 1 ->
  K * (t ^ s * (1 - t) ^ f) <= INR (S (s + f)) * (K * (INR (fact s) * INR (fact f) / INR (fact (S (s + f))))).
Proof.
  intros HK Ht. pose proof (binomial_term t (1 - t) s f ltac:(lra) ltac:(lra)) as B.
  replace (t + (1 - t)) with 1 in B by ring. rewrite pow1 in B.
  pose proof (INR_fact_lt_0 s) as F1. pose proof (INR_fact_lt_0 f) as F2. pose proof (INR_fact_lt_0 (s + f)) as F3. pose proof (fact_sum s f) as F4.
  assert (HS : 0 < INR (S (s + f))) by (apply lt_0_INR; lia).
  rewrite fact_simpl, mult_INR.
  replace (INR (S (s + f)) * (K * (INR (fact s) * INR (fact f) / (INR (S (s + f)) * INR (fact (s + f))))))
    with (K * (INR (fact s) * INR (fact f) / INR (fact (s + f)))) by (field; lra).
  apply Rmult_le_compat_l; [exact HK|].
  assert (HC : 0 < Binomial.C (s + f) s) by (unfold Binomial.C; apply Rdiv_lt_0_compat; [apply INR_fact_lt_0|apply Rmult_lt_0_compat; apply INR_fact_lt_0]).
  rewrite F4. replace (INR (fact s) * INR (fact f) / (Binomial.C (s + f) s * (INR (fact s) * INR (fact f)))) with (/ Binomial.C (s + f) s) by (field; lra).
  apply (Rmult_le_reg_l (Binomial.C (s + f) s)); [exact HC|]. rewrite Rinv_r by lra. exact B.
Qed.

Definition fails (data : list (nat * nat)) : nat := sumN (map (fun o => fst o - snd o)%nat data).
Lemma binomial_lik_closed data t : Forall (fun o => (snd o <= fst o)%nat) data ->
  likelihood (fun p (o : nat * nat) => pmf (Binomial_dist (mkBinomial (INR (fst o)) p)) (Z.of_nat (snd o))) data t
  = prodR (map (fun o => choose (INR (fst o)) (snd o)) data) * (t ^ sumN (map snd data) * (1 - t) ^ fails data) /\
  0 < prodR (map (fun o => choose (INR (fst o)) (snd o)) data) /\ (sumN (map snd data) + fails data = sumN (map fst data))%nat.
Proof.
  intros F. unfold fails. induction F as [|[n x] l Hx F IH].
  - rewrite likelihood_nil. simpl. split; [ring|]. split; [lra|reflexivity].
  - destruct IH as (I1 & I2 & I3). rewrite likelihood_cons, I1. cbn [fst snd map] in *. rewrite !sumN_cons, !pow_add. split; [|split].
    + unfold Binomial_dist; simpl Binomial_n; simpl Binomial_p. rewrite binom_pmf by exact Hx.
      change (prodR (choose (INR n) x :: ?l)) with (choose (INR n) x * prodR l). ring.
    + change (prodR (choose (INR n) x :: ?l)) with (choose (INR n) x * prodR l).
      apply Rmult_lt_0_compat; [now apply choose_pos|exact I2].
    + lia.
Qed.

Lemma uninformative_ok : 0 < Beta_alpha (Beta_uninformative : Beta R) /\ 0 < Beta_beta (Beta_uninformative : Beta R).
Proof. unfold Beta_uninformative. simpl. lra. Qed.

Lemma binomial_regret :
  regret_at_most (fun p (o : nat * nat) => pmf (Binomial_dist (mkBinomial (INR (fst o)) p)) (Z.of_nat (snd o)))
    (fun d o => Ok (binomial_beta (INR (fst o)) (INR (snd o)) d))
    (fun d o => Ok (pmf (BetaBinomial_dist (binomial_beta_predictive (INR (fst o)) d)) (Z.of_nat (snd o))))
    (fun p => 0 <= p <= 1) (fun o => (snd o <= fst o)%nat) Beta_uninformative
    (fun data => INR (S (sumN (map fst data)))).
Proof.
  intros data F. destruct (binomial_prequential Beta_uninformative data uninformative_ok F) as (e & c & E & _ & Hc & I & _).
  exists e, c. split; [exact E|]. intros t Ht. destruct (binomial_lik_closed data t F) as (L & HK & S1). rewrite L, <- S1.
  pose proof (uniform_evidence _ _ _ _ (fun u => proj1 (binomial_lik_closed data u F))) as V.
  rewrite (over1_uniq _ _ _ _ _ I V). apply two_outcomes; [lra|exact Ht].
Qed.

Lemma bernoulli_lik data t : Forall (fun x => (x <= 1)%nat) data ->
  likelihood (fun p (x : nat) => if Nat.eqb x 1 then p else 1 - p) data t = 1 * (t ^ sumN data * (1 - t) ^ (length data - sumN data)) /\ (sumN data <= length data)%nat.
Proof.
  intros F. induction F as [|x l Hx F IH]; [rewrite likelihood_nil; simpl; split; [ring|lia]|].
  destruct IH as [I1 I2]. rewrite likelihood_cons, I1, sumN_cons. cbn [length]. split; [|lia].
  destruct x as [|[|x]]; [| |lia]; cbn [Nat.eqb].
  - replace (S (length l) - (0 + sumN l))%nat with (S (length l - sumN l)) by lia. simpl. ring.
  - replace (S (length l) - (1 + sumN l))%nat with (length l - sumN l)%nat by lia. simpl. ring.
Qed.

Lemma bernoulli_regret :
  regret_at_most (fun p (x : nat) => if Nat.eqb x 1 then p else 1 - p)
    (fun d x => Ok (bernoulli_beta (INR x) d))
    (fun d x => Ok (pmf (BetaBinomial_dist (bernoulli_beta_predictive d)) (Z.of_nat x)))
    (fun p => 0 <= p <= 1) (fun x => (x <= 1)%nat) Beta_uninformative (fun data => INR (S (length data))).
Proof.
  intros data F. destruct (bernoulli_prequential Beta_uninformative data uninformative_ok F) as (e & c & E & _ & Hc & I & _).
  exists e, c. split; [exact E|]. intros t Ht. destruct (bernoulli_lik data t F) as (L & S1).
  rewrite L. replace (length data) with (sumN data + (length data - sumN data))%nat at 2 by lia.
  pose proof (uniform_evidence _ _ _ _ (fun u => proj1 (bernoulli_lik data u F))) as V.
  rewrite (over1_uniq _ _ _ _ _ I V). apply two_outcomes; [lra|exact Ht].
Qed.

Lemma ones_sum N : sumN (repeat 1%nat N) = N.
Proof. induction N; [reflexivity|]. cbn [repeat]. rewrite sumN_cons. lia. Qed.

Lemma bernoulli_regret_reached :
  regret_reached (fun p (x : nat) => if Nat.eqb x 1 then p else 1 - p)
    (fun d x => Ok (bernoulli_beta (INR x) d))
    (fun d x => Ok (pmf (BetaBinomial_dist (bernoulli_beta_predictive d)) (Z.of_nat x)))
    (fun p => 0 <= p <= 1) (fun x => (x <= 1)%nat) Beta_uninformative (fun data => INR (S (length data))).
Proof.
  intros N. exists (repeat 1%nat N), 1. split; [apply repeat_length|].
  assert (F : Forall (fun x => (x <= 1)%nat) (repeat 1%nat N)) by (apply Forall_forall; intros x Hx; apply repeat_spec in Hx; lia).
  split; [exact F|]. split; [lra|].
  destruct (bernoulli_prequential Beta_uninformative _ uninformative_ok F) as (e & c & E & _ & Hc & I & _).
  exists e, c. split; [exact E|]. split; [exact Hc|]. destruct (bernoulli_lik _ 1 F) as (L & _). rewrite L.
  pose proof (uniform_evidence _ _ _ _ (fun u => proj1 (bernoulli_lik _ u F))) as V.
  rewrite (over1_uniq _ _ _ _ _ I V). rewrite ones_sum, repeat_length, Nat.sub_diag, Nat.add_0_r.
  rewrite pow1, pow_O, fact_simpl, mult_INR. pose proof (INR_fact_lt_0 N). assert (0 < INR (S N)) by (apply lt_0_INR; lia).
  simpl (fact 0). simpl (INR 1). field. lra.
Qed.

(** ** any number of outcomes, uniform prior *)
Definition ones (n : nat) : list R := repeat 1 n.
Lemma ones_sumR n : sumR (ones n) = INR n.
Proof. unfold ones. induction n; [reflexivity|]. cbn [repeat]. rewrite sumR_cons, IHn, S_INR. ring. Qed.
Lemma ones_pos n : Forall (fun a => 0 < a) (ones n).
Proof. apply Forall_forall. intros x Hx. apply repeat_spec in Hx. lra. Qed.
Lemma uninformative_alphas n : alphas n (Dirichlet_alpha (Dirichlet_uninformative (A:=R) (S n))) = ones (S n).
Proof.
  unfold alphas, Dirichlet_uninformative, ones. cbn -[seq repeat]. generalize 0%nat. induction (S n) as [|m IH]; intros k; [reflexivity|].
  cbn [seq map repeat]. f_equal. apply IH.
Qed.
Lemma uninformative_dirichlet_ok n : dirichlet_ok n (Dirichlet_uninformative (S n)).
Proof. eexists. split; [reflexivity|]. split; [reflexivity|]. rewrite uninformative_alphas. apply ones_pos. Qed.

Lemma dm_ones n x : length x = S n -> dirichlet_multinomial_pmf (ones (S n)) (sumN x) x = / Binomial.C (sumN x + n) n.
Proof.
  intros L. unfold dirichlet_multinomial_pmf. rewrite Nat.eqb_refl, ones_sumR, Gamma_fun_fact.
  replace (INR (S n)) with (INR n + 1) by (rewrite S_INR; ring). replace (INR (sumN x) + (INR n + 1)) with (INR (sumN x + n) + 1) by (rewrite plus_INR; ring).
  rewrite !Gamma_fun_fact.
  assert (P : prodR (map (fun q => Gamma_fun (INR (snd q) + fst q) / (Gamma_fun (fst q) * Gamma_fun (INR (snd q) + 1))) (combine (ones (S n)) x)) = 1).
  { rewrite <- L. clear L. unfold ones. induction x as [|k x IH]; [reflexivity|]. cbn [length repeat combine map].
    change (prodR (?a :: ?l)) with (a * prodR l). rewrite IH. cbn [fst snd]. rewrite !Gamma_fun_fact.
    replace (Gamma_fun 1) with 1 by (replace 1 with (INR 0 + 1) at 2 by (simpl; ring); now rewrite Gamma_fun_fact).
    pose proof (INR_fact_lt_0 k). field. lra. }
  rewrite P. unfold Binomial.C. replace (sumN x + n - n)%nat with (sumN x) by lia.
  pose proof (INR_fact_lt_0 n). pose proof (INR_fact_lt_0 (sumN x)). pose proof (INR_fact_lt_0 (sumN x + n)). field. lra.
Qed.

Lemma choose_pos_nat N n : 0 < Binomial.C (N + n) n.
Proof. unfold Binomial.C. apply Rdiv_lt_0_compat; [apply INR_fact_lt_0|]. apply Rmult_lt_0_compat; apply INR_fact_lt_0. Qed.

(** the evidence of a likelihood K prod p_i^x_i *)
Lemma uniform_evidence_simplex n K x (lik : list R -> R) v : length x = S n -> (forall p, length p = S n -> lik p = K * cpow p x) ->
  is_simplex_int n 1 (fun p => lik p * dirichlet_pdf (alphas n (Dirichlet_alpha (Dirichlet_uninformative (A:=R) (S n)))) p) v ->
  v = K / multinomial_coef x * / Binomial.C (sumN x + n) n.
Proof.
  intros Lx E I. rewrite uninformative_alphas in I.
  pose proof (dm_marginal n (ones (S n)) x (repeat_length _ _) Lx (ones_pos _)) as D. rewrite (dm_ones n x Lx) in D.
  apply (simplex_scal n 1 _ _ (K / multinomial_coef x)) in D. apply (simplex_uniq n 1 _ _ _ Rlt_0_1 I).
  revert D. apply simplex_ext; [lra|]. intros p (Lp & _). rewrite E by exact Lp. unfold multinomial_pmf. fold (cpow p x).
  pose proof (coef_pos x). field. lra.
Qed.

Lemma many_outcomes n K x q : length x = S n -> 0 <= K -> probabilities n q ->
  K * cpow q x <= Binomial.C (sumN x + n) n * (K / multinomial_coef x * / Binomial.C (sumN x + n) n).
Proof.
  intros Lx HK (Lq & Fq & Sq). destruct (multinomial_le q x ltac:(lia) Fq) as [M _]. rewrite Sq, pow1 in M.
  pose proof (coef_pos x) as HC. pose proof (choose_pos_nat (sumN x) n) as HB.
  replace (Binomial.C (sumN x + n) n * (K / multinomial_coef x * / Binomial.C (sumN x + n) n)) with (K * / multinomial_coef x) by (field; lra).
  apply Rmult_le_compat_l; [exact HK|]. apply (Rmult_le_reg_l (multinomial_coef x)); [exact HC|]. rewrite Rinv_r by lra. exact M.
Qed.

Lemma total_len n data : length (total n data) = S n.
Proof. unfold total. now rewrite map_length, seq_length. Qed.

Lemma total_sum n data : Forall (fun x => length x = S n) data -> sumN (total n data) = sumN (map sumN data).
Proof.
  intros F. induction F as [|x l Hx F IH].
  - unfold total. cbn [map]. rewrite <- (map_map (fun k => []) (@sumN)). cbn [sumN fold_right].
    generalize (seq 0 (S n)). intros s. induction s; [reflexivity|]. cbn [map]. rewrite sumN_cons. exact IHs.
  - cbn [map]. rewrite sumN_cons, <- IH. unfold total. cbn [map].
    transitivity (sumN (map (fun k => nth k x 0%nat) (seq 0 (S n))) + sumN (map (fun k => sumN (map (fun x => nth k x 0%nat) l)) (seq 0 (S n))))%nat.
    + generalize (seq 0 (S n)). intros s. induction s as [|k s IHs]; [reflexivity|]. cbn [map]. rewrite !sumN_cons, IHs. lia.
    + f_equal. rewrite <- Hx. clear. f_equal. induction x as [|a x IH]; [reflexivity|]. cbn [length seq map nth]. f_equal.
      rewrite <- seq_shift, map_map. exact IH.
Qed.

Lemma multinomial_regret n :
  regret_at_most multinomial_pmf
    (fun d x => with_alpha (multinomial_dirichlet (CArr (as_array (map INR x)))) d)
    (fun d x => let P := multinomial_dirichlet_predictive (Some (INR (sumN x))) d in
       Ok (dirichlet_multinomial_pmf (alphas n (DirichletMultinomial_alpha P)) (Rnat (DirichletMultinomial_n P)) x))
    (probabilities n) (fun x => length x = S n) (Dirichlet_uninformative (S n))
    (fun data => Binomial.C (sumN (map sumN data) + n) n).
Proof.
  intros data F. destruct (multinomial_prequential n _ data (uninformative_dirichlet_ok n) F) as (e & c & E & _ & _ & I & _).
  exists e, c. split; [exact E|]. intros q Hq.
  rewrite (lik_multinomial n data q (proj1 Hq) F), <- (total_sum n data F).
  rewrite (uniform_evidence_simplex n _ (total n data) _ c (total_len n data) (fun p Lp => lik_multinomial n data p Lp F) I).
  apply many_outcomes; [apply total_len| |exact Hq]. left. apply prodR_pos, Forall_map, Forall_forall. intros; apply coef_pos.
Qed.

Lemma counts_len n data : length (counts n data) = S n.
Proof. unfold counts. now rewrite map_length, seq_length. Qed.
Lemma counts_sum n data : Forall (fun k => (k <= n)%nat) data -> sumN (counts n data) = length data.
Proof.
  intros F. unfold counts. induction F as [|k l Hk F IH].
  - cbn [count_occ length]. generalize (seq 0 (S n)). intros s. induction s; [reflexivity|]. cbn [map]. rewrite sumN_cons. exact IHs.
  - cbn [length]. rewrite <- IH.
    assert (G : forall m s, (s <= k < s + m)%nat -> sumN (map (fun j => count_occ Nat.eq_dec (k :: l) j) (seq s m)) = S (sumN (map (fun j => count_occ Nat.eq_dec l j) (seq s m)))).
    { intros m. induction m as [|m IHm]; intros s Hs; [lia|]. cbn [seq map]. rewrite !sumN_cons. destruct (Nat.eq_dec k s) as [->|D].
      - rewrite count_occ_cons_eq by reflexivity.
        assert (Z : forall m' s', (s < s')%nat -> sumN (map (fun j => count_occ Nat.eq_dec (s :: l) j) (seq s' m')) = sumN (map (fun j => count_occ Nat.eq_dec l j) (seq s' m'))).
        { intros m'. induction m' as [|m' IH']; intros s' Hs'; [reflexivity|]. cbn [seq map]. rewrite !sumN_cons, IH' by lia. rewrite count_occ_cons_neq by lia. reflexivity. }
        rewrite Z by lia. lia.
      - rewrite count_occ_cons_neq by exact D. rewrite IHm by lia. lia. }
    apply G. lia.
Qed.

Lemma categorical_regret n :
  regret_at_most categorical_pmf
    (fun d k => with_alpha (categorical_dirichlet (CArr (as_array (map INR (counts n [k]))))) d)
    (fun d k => let P := categorical_dirichlet_predictive None d in
       Ok (dirichlet_multinomial_pmf (alphas n (DirichletMultinomial_alpha P)) (Rnat (DirichletMultinomial_n P)) (counts n [k])))
    (probabilities n) (fun k => (k <= n)%nat) (Dirichlet_uninformative (S n))
    (fun data => Binomial.C (length data + n) n).
Proof.
  intros data F. destruct (categorical_prequential n _ data (uninformative_dirichlet_ok n) F) as (e & c & E & _ & _ & I & _).
  exists e, c. split; [exact E|]. intros q Hq. rewrite (lik_categorical n data q (proj1 Hq) F), <- (counts_sum n data F).
  assert (L : forall p, length p = S n -> likelihood categorical_pmf data p = 1 * cpow p (counts n data)) by (intros p Lp; rewrite Rmult_1_l; now apply lik_categorical).
  rewrite (uniform_evidence_simplex n 1 (counts n data) _ c (counts_len n data) L I).
  rewrite <- (Rmult_1_l (cpow q _)). apply many_outcomes; [apply counts_len|lra|exact Hq].
Qed.

(** always the first category *)
Lemma categorical_regret_reached n :
  regret_reached categorical_pmf
    (fun d k => with_alpha (categorical_dirichlet (CArr (as_array (map INR (counts n [k]))))) d)
    (fun d k => let P := categorical_dirichlet_predictive None d in
       Ok (dirichlet_multinomial_pmf (alphas n (DirichletMultinomial_alpha P)) (Rnat (DirichletMultinomial_n P)) (counts n [k])))
    (probabilities n) (fun k => (k <= n)%nat) (Dirichlet_uninformative (S n))
    (fun data => Binomial.C (length data + n) n).
Proof.
  intros N. exists (repeat 0%nat N), (1 :: repeat 0 n). split; [apply repeat_length|].
  assert (F : Forall (fun k => (k <= n)%nat) (repeat 0%nat N)) by (apply Forall_forall; intros x Hx; apply repeat_spec in Hx; lia).
  split; [exact F|]. split.
  { split; [simpl; now rewrite repeat_length|]. split.
    - constructor; [lra|]. apply Forall_forall. intros x Hx. apply repeat_spec in Hx. lra.
    - rewrite sumR_cons. replace (sumR (repeat 0 n)) with 0; [ring|]. clear. induction n; [reflexivity|]. cbn [repeat]. rewrite sumR_cons. lra. }
  destruct (categorical_prequential n _ _ (uninformative_dirichlet_ok n) F) as (e & c & E & _ & Hc & I & _).
  exists e, c. split; [exact E|]. split; [exact Hc|].
  assert (L : forall p, length p = S n -> likelihood categorical_pmf (repeat 0%nat N) p = 1 * cpow p (counts n (repeat 0%nat N))) by (intros p Lp; rewrite Rmult_1_l; now apply lik_categorical).
  rewrite (uniform_evidence_simplex n 1 _ _ c (counts_len n _) L I), (counts_sum n _ F), repeat_length.
  assert (L1 : likelihood categorical_pmf (repeat 0%nat N) (1 :: repeat 0 n) = 1).
  { clear. induction N; [apply likelihood_nil|]. cbn [repeat]. rewrite likelihood_cons, IHN. unfold categorical_pmf. cbn [nth]. ring. }
  rewrite L1.
  assert (K : multinomial_coef (counts n (repeat 0%nat N)) = 1).
  { unfold multinomial_coef. rewrite (counts_sum n _ F), repeat_length. unfold counts. cbn [seq map].
    assert (C0 : count_occ Nat.eq_dec (repeat 0%nat N) 0%nat = N) by (clear; induction N; [reflexivity|]; cbn [repeat]; rewrite count_occ_cons_eq by reflexivity; lia).
    rewrite C0. change (prodR (?a :: ?l)) with (a * prodR l).
    replace (prodR (map (fun k => INR (fact k)) (map (fun k => count_occ Nat.eq_dec (repeat 0%nat N) k) (seq 1 n)))) with 1.
    - pose proof (INR_fact_lt_0 N). field. lra.
    - symmetry. assert (G : forall m s, (0 < s)%nat -> prodR (map (fun k => INR (fact k)) (map (fun k => count_occ Nat.eq_dec (repeat 0%nat N) k) (seq s m))) = 1).
      { intros m. induction m as [|m IH]; intros s Hs; [reflexivity|]. cbn [seq map]. change (prodR (?a :: ?l)) with (a * prodR l). rewrite IH by lia.
        replace (count_occ Nat.eq_dec (repeat 0%nat N) s) with 0%nat; [simpl; ring|].
        symmetry. apply count_occ_not_In. intros Hin. apply repeat_spec in Hin. lia. }
      apply G. lia. }
  rewrite K. pose proof (choose_pos_nat N n). field. lra.
Qed.

(** ** normal observations *)
Lemma is_RInt_gen_uniq_line f (l l' : R) : is_RInt_gen f Fminf Finf l -> is_RInt_gen f Fminf Finf l' -> l = l'.
Proof. intros H H'. apply (is_RInt_gen_unique (V := R_CompleteNormedModule)) in H, H'. congruence. Qed.

Lemma normal_regret_exact var prior data : 0 < var -> 0 < Normal_sigma prior -> data <> [] ->
  exists e c, one_by_one (fun d x => Ok (normal_known_variance x 1 var d))
    (fun d x => Ok (pdf (Normal_dist (normal_known_variance_predictive var d)) x)) prior data = Ok (e, c) /\ 0 < c /\
  forall m, likelihood (fun m x => pdf (Normal_dist (mkNormal m (sqrt var))) x) data m =
    normal_factor var (Normal_mu prior) (Normal_sigma prior) data * c * exp (- (INR (length data) * (m - sumR data / INR (length data)) ^ 2 / (2 * var))).
Proof.
  intros Hv Hs Nd. destruct (normal_known_variance_prequential var Hv prior data Hs ltac:(apply Forall_forall; auto)) as (e & c & E & _ & Hc & I & _).
  exists e, c. split; [exact E|]. split; [exact Hc|]. intros m.
  destruct (normal_known_variance_bayes prior var data Hs Hv) as (ev & Hev & Iev & Hp).
  assert (ev = c) as ->.
  { refine (is_RInt_gen_uniq_line _ _ _ Iev _). unfold over1 in I. eapply is_RInt_gen_ext; [|exact I]. apply filter_forall. intros [a b] t _. cbn. ring. }
  assert (Hn : 0 < INR (length data)) by (apply lt_0_INR; destruct data; [congruence|simpl; lia]).
  specialize (Hp m). unfold normal_factor. destruct prior as [mu s]. cbn [Normal_mu Normal_sigma] in *.
  set (n := INR (length data)) in *. set (x := sumR data) in *. set (L := likelihood _ data m) in *.
  set (P := 1 / s ^ 2 + n / var). assert (Hs2 : 0 < s ^ 2) by nra.
  assert (His2 : 0 < 1 / s ^ 2) by (apply Rdiv_lt_0_compat; lra).
  assert (Hnv : 0 < n / var) by (apply Rdiv_lt_0_compat; lra).
  assert (HP : 0 < P) by (unfold P; lra).
  set (M := (mu / s ^ 2 + x / var) / P).
  change (normal_known_variance x n var (mkNormal mu s)) with (mkNormal M (sqrt (1 / P))) in Hp.
  assert (HsP : 0 < sqrt (1 / P)) by (apply sqrt_lt_R0; apply Rdiv_lt_0_compat; lra).
  pose proof sqrt_2pi_pos as Hpi. unfold Normal_dist in Hp. cbn [Normal_mu Normal_sigma] in Hp.
  rewrite !norm_pdf in Hp by assumption. rewrite pow2_sqrt in Hp by (left; apply Rdiv_lt_0_compat; lra).
  assert (Hq : sqrt ((var + n * s ^ 2) / var) = s * / sqrt (1 / P)).
  { replace ((var + n * s ^ 2) / var) with (s ^ 2 / (1 / P)) by (unfold P; field; repeat split; try lra; nra).
    rewrite sqrt_div by (try (apply Rdiv_lt_0_compat); lra). rewrite sqrt_pow2 by lra. reflexivity. }
  rewrite Hq.
  set (ep := exp (- (m - mu) ^ 2 / (2 * s ^ 2))) in *. assert (Hep : 0 < ep) by apply exp_pos.
  assert (HL : L = s * / sqrt (1 / P) * c * (exp (- (m - M) ^ 2 / (2 * (1 / P))) * / ep)).
  { match type of Hp with ?l = _ => replace L with (l * c * (s * sqrt (2 * PI)) * / ep) end.
    - field. repeat split; lra.
    - rewrite Hp. field. repeat split; lra. }
  rewrite HL. unfold ep. rewrite <- exp_Ropp, <- exp_plus.
  match goal with |- ?a * c * exp ?u = ?a * exp ?v * c * exp ?w => transitivity (a * c * (exp v * exp w)); [|ring] end.
  rewrite <- exp_plus. f_equal. f_equal.
  unfold M, P. field. repeat split; try lra; nra.
Qed.

Lemma exp_mono x y : x <= y -> exp x <= exp y.
Proof. intros [H| ->]; [left; now apply exp_increasing|right; reflexivity]. Qed.

Lemma normal_regret var prior : 0 < var -> 0 < Normal_sigma prior ->
  regret_at_most (fun m x => pdf (Normal_dist (mkNormal m (sqrt var))) x)
    (fun d x => Ok (normal_known_variance x 1 var d))
    (fun d x => Ok (pdf (Normal_dist (normal_known_variance_predictive var d)) x))
    (fun _ => True) (fun _ => True) prior (normal_factor var (Normal_mu prior) (Normal_sigma prior)).
Proof.
  intros Hv Hs data _. destruct data as [|x0 data].
  - exists prior, 1. split; [reflexivity|]. intros m _. rewrite likelihood_nil. unfold normal_factor. cbn [length INR].
    replace ((var + 0 * Normal_sigma prior ^ 2) / var) with 1 by (field; lra). rewrite sqrt_1.
    unfold Rdiv at 1. rewrite !Rmult_0_l, exp_0. lra.
  - destruct (normal_regret_exact var prior (x0 :: data) Hv Hs ltac:(discriminate)) as (e & c & E & Hc & H).
    exists e, c. split; [exact E|]. intros m _. rewrite H. rewrite <- (Rmult_1_r (normal_factor _ _ _ _ * c)) at 2.
    apply Rmult_le_compat_l.
    + apply Rmult_le_pos; [|lra]. unfold normal_factor. apply Rmult_le_pos; [apply sqrt_pos|left; apply exp_pos].
    + rewrite <- exp_0. apply exp_mono. pose proof (pos_INR (length (x0 :: data))).
      set (q := INR (length (x0 :: data))) in *. assert (0 <= q * (m - sumR (x0 :: data) / q) ^ 2 / (2 * var)); [|lra].
      apply Rmult_le_pos; [apply Rmult_le_pos; [lra|apply pow2_ge_0]|left; apply Rinv_0_lt_compat; lra].
Qed.

Lemma normal_regret_reached var prior : 0 < var -> 0 < Normal_sigma prior ->
  regret_reached (fun m x => pdf (Normal_dist (mkNormal m (sqrt var))) x)
    (fun d x => Ok (normal_known_variance x 1 var d))
    (fun d x => Ok (pdf (Normal_dist (normal_known_variance_predictive var d)) x))
    (fun _ => True) (fun _ => True) prior (normal_factor var (Normal_mu prior) (Normal_sigma prior)).
Proof.
  intros Hv Hs N. destruct N as [|N].
  - exists [], 0. split; [reflexivity|]. split; [constructor|]. split; [exact Logic.I|]. exists prior, 1. split; [reflexivity|]. split; [lra|].
    rewrite likelihood_nil. unfold normal_factor. cbn [length INR].
    replace ((var + 0 * Normal_sigma prior ^ 2) / var) with 1 by (field; lra). rewrite sqrt_1.
    unfold Rdiv at 1. rewrite !Rmult_0_l, exp_0. lra.
  - set (data := repeat 0 (S N)).
    destruct (normal_regret_exact var prior data Hv Hs ltac:(discriminate)) as (e & c & E & Hc & H).
    exists data, (sumR data / INR (length data)). split; [apply repeat_length|]. split; [apply Forall_forall; auto|]. split; [exact Logic.I|].
    exists e, c. split; [exact E|]. split; [exact Hc|]. rewrite H. unfold Rminus at 1. rewrite Rplus_opp_r.
    replace (- (INR (length data) * 0 ^ 2 / (2 * var))) with 0 by (field; lra). rewrite exp_0. ring.
Qed.
