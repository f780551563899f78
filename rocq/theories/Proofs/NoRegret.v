(** The factors of Spec/Regret.v grow slower than any exponential. *)

From Coq Require Import Reals Lra Lia ZArith.
From Coquelicot Require Import Coquelicot.
From Verif Require Import Model.Num Model.Py Model.NdArray Model.DirichletModel Model.Dists Model.ScipyDist Model.Models.
From Verif Require Import Spec.Special Spec.Densities Spec.Bayes Spec.Simplex Spec.Prequential Spec.Joint Spec.Regret.
From Verif Require Import Analysis.Improper Analysis.GammaBeta Analysis.GammaFacts Analysis.Concentration Proofs.Pdfs Proofs.Conj Proofs.Predictive Proofs.Dirichlet Proofs.Prequential Proofs.Regret Proofs.RegretGamma Proofs.RegretBeta Proofs.RegretNormal.
From Coq Require Import List.
Import ListNotations.
Open Scope R_scope.

(** ** powers against exponentials *)
Lemma ln_small eps : 0 < eps -> exists Y, 0 < Y /\ forall y, Y <= y -> ln y <= eps * y.
Proof.
  intros He. pose proof is_lim_div_ln_p as L. apply is_lim_spec in L. destruct (L (mkposreal eps He)) as [M HM].
  exists (Rmax 1 (M + 1)). split; [pose proof (Rmax_l 1 (M + 1)); lra|]. intros y Hy.
  pose proof (Rmax_l 1 (M + 1)). pose proof (Rmax_r 1 (M + 1)). specialize (HM y ltac:(lra)). simpl in HM.
  rewrite Rminus_0_r in HM. apply Rabs_def2 in HM. destruct HM as [HM _].
  apply Rlt_le. apply (Rmult_lt_compat_r y) in HM; [|lra]. unfold Rdiv in HM. rewrite Rmult_assoc, Rinv_l in HM by lra. lra.
Qed.

Lemma power_small C c D eps : 0 < C -> 0 < c -> 0 <= D -> 0 < eps ->
  exists N : nat, forall n : nat, (N <= n)%nat -> C * Rpower (INR n + c) D <= exp (eps * INR n).
Proof.
  intros HC Hc HD He. destruct (ln_small (eps / (2 * (D + 1))) ltac:(apply Rdiv_lt_0_compat; lra)) as (Y & HY & H).
  destruct (nfloor_ex (Rmax Y (2 / eps * Rmax 0 (ln C + eps * c)))) as [N [_ HN]].
  { eapply Rle_trans; [|apply Rmax_l]. lra. }
  exists (S N). intros n Hn. apply le_INR in Hn. rewrite S_INR in Hn.
  pose proof (Rmax_l Y (2 / eps * Rmax 0 (ln C + eps * c))) as M1. pose proof (Rmax_r Y (2 / eps * Rmax 0 (ln C + eps * c))) as M2.
  pose proof (Rmax_r 0 (ln C + eps * c)) as M3.
  assert (Q : ln C + eps * c <= eps / 2 * INR n).
  { assert (E : 2 / eps * Rmax 0 (ln C + eps * c) <= INR n) by lra. apply (Rmult_le_compat_l (eps / 2)) in E; [|lra].
    replace (eps / 2 * (2 / eps * Rmax 0 (ln C + eps * c))) with (Rmax 0 (ln C + eps * c)) in E by (field; lra). lra. }
  specialize (H (INR n + c) ltac:(lra)).
  rewrite <- (exp_ln C) at 1 by lra. unfold Rpower. rewrite <- exp_plus. apply exp_mono.
  assert (D * ln (INR n + c) <= eps / 2 * (INR n + c)).
  { apply (Rmult_le_compat_l D) in H; [|lra]. eapply Rle_trans; [exact H|].
    replace (D * (eps / (2 * (D + 1)) * (INR n + c))) with (eps / 2 * (INR n + c) * (D / (D + 1))) by (field; lra).
    rewrite <- (Rmult_1_r (eps / 2 * (INR n + c))) at 2. apply Rmult_le_compat_l; [pose proof (pos_INR n); nra|].
    apply Rle_div_l; lra. }
  nra.
Qed.

(** ** from a factor to no regret *)
Section Transfer.
Context {P D O : Type} (lik : P -> O -> R) (update : D -> O -> res D) (predict : D -> O -> res R)
  (dom : P -> Prop) (obs obs' : O -> Prop) (d : D) (factor : list O -> R) (size : list O -> nat).

Lemma no_regret_of : regret_at_most lik update predict dom obs d factor -> (forall x, obs' x -> obs x) ->
  (forall data, Forall obs data -> exists e c, one_by_one update predict d data = Ok (e, c) /\ 0 < c) ->
  (forall eps, 0 < eps -> exists N : nat, forall data, Forall obs' data -> (N <= size data)%nat -> factor data <= exp (eps * INR (size data))) ->
  no_regret lik update predict dom obs' d size.
Proof.
  intros G I L S eps He. destruct (S eps He) as [N HN]. exists N. intros data F Hs.
  assert (F' : Forall obs data) by (eapply Forall_impl; [exact I|exact F]).
  destruct (G data F') as (e & c & E & H). destruct (L data F') as (e' & c' & E' & Hc). rewrite E in E'. injection E' as <- <-.
  exists e, c. split; [exact E|]. intros t Ht. eapply Rle_trans; [exact (H t Ht)|]. apply Rmult_le_compat_r; [lra|]. now apply HN.
Qed.

(** a factor of polynomial growth *)
Lemma no_regret_poly N1 C c K : 0 < C -> 0 < c -> 0 <= K -> regret_at_most lik update predict dom obs d factor -> (forall x, obs' x -> obs x) ->
  (forall data, Forall obs data -> exists e c, one_by_one update predict d data = Ok (e, c) /\ 0 < c) ->
  (forall data, Forall obs' data -> (N1 <= size data)%nat -> factor data <= C * Rpower (INR (size data) + c) K) ->
  no_regret lik update predict dom obs' d size.
Proof.
  intros HC Hc HK G I L B. apply no_regret_of; [exact G|exact I|exact L|]. intros eps He.
  destruct (power_small C c K eps HC Hc HK He) as [N HN]. exists (N1 + N)%nat. intros data F Hs.
  eapply Rle_trans; [apply B; [exact F|lia]|]. apply HN. lia.
Qed.
End Transfer.

(** ** the Beta function decreases in both arguments, and slowly *)
Lemma Rpower_anti t a b : 0 < t < 1 -> a <= b -> Rpower t b <= Rpower t a.
Proof. intros Ht H. unfold Rpower. apply exp_mono. pose proof (ln_le_sub t ltac:(lra)). nra. Qed.

Lemma Beta_fun_anti a b a' b' : 0 < a <= a' -> 0 < b <= b' -> Beta_fun a' b' <= Beta_fun a b.
Proof.
  intros [Ha Ha'] [Hb Hb'].
  apply (is_RInt_gen_le_on _ _ _ (ends_open 0 1 Rlt_0_1) _ _ _ _) with (2 := is_RInt_gen_Beta a' b' ltac:(lra) ltac:(lra)) (3 := is_RInt_gen_Beta a b Ha Hb).
  intros x Hx. apply Rmult_le_compat; try (left; apply exp_pos); apply Rpower_anti; lra.
Qed.

Lemma Beta_fun_shift k x y : 1 <= x -> 1 <= y -> Beta_fun x y <= Beta_fun (x + INR k) (y + INR k) * (x + y + 2 * INR k) ^ (2 * k).
Proof.
  intros Hx Hy. induction k as [|k IH].
  - simpl. rewrite !Rplus_0_r, Rmult_1_r. lra.
  - pose proof (pos_INR k) as Hk. rewrite S_INR. replace (x + (INR k + 1)) with (x + INR k + 1) by ring. replace (y + (INR k + 1)) with (y + INR k + 1) by ring.
    rewrite Beta_fun_succ_l, Beta_fun_succ_r by lra.
    set (u := x + INR k) in *. set (v := y + INR k) in *.
    assert (Hu : 1 <= u) by (unfold u; lra). assert (Hv : 1 <= v) by (unfold v; lra).
    pose proof (Beta_fun_pos u v ltac:(lra) ltac:(lra)) as HB.
    replace (2 * S k)%nat with (2 + 2 * k)%nat by lia. rewrite pow_add.
    set (T := x + y + 2 * (INR k + 1)). assert (HT : T = u + v + 2) by (unfold T, u, v; ring).
    eapply Rle_trans; [exact IH|].
    replace (Beta_fun u v * (v / (u + v)) * (u / (u + (v + 1))) * (T ^ 2 * T ^ (2 * k)))
      with (Beta_fun u v * T ^ (2 * k) * ((v / (u + v)) * (u / (u + (v + 1))) * T ^ 2)) by ring.
    rewrite <- (Rmult_1_r (Beta_fun u v * (x + y + 2 * INR k) ^ (2 * k))).
    apply Rmult_le_compat; [apply Rmult_le_pos; [lra|apply pow_le; lra]|lra| |].
    + apply Rmult_le_compat_l; [lra|]. apply pow_incr. unfold T. lra.
    + replace (v / (u + v) * (u / (u + (v + 1))) * T ^ 2) with ((u * v) * (T / (u + v)) * (T / (u + v + 1))) by (field; lra).
      assert (1 <= u * v) by nra.
      assert (1 <= T / (u + v)) by (apply Rle_div_r; lra). assert (1 <= T / (u + v + 1)) by (apply Rle_div_r; lra).
      rewrite <- (Rmult_1_r 1), <- (Rmult_1_r 1) at 1. apply Rmult_le_compat; try lra. nra.
Qed.

(** ** binomial counts *)
Lemma kernel_integer s f : Rpower (INR s / (INR s + INR f)) (INR s) * Rpower (INR f / (INR s + INR f)) (INR f) <= INR (S (s + f)) * Beta_fun (INR s + 1) (INR f + 1).
Proof.
  assert (V : Beta_fun (INR s + 1) (INR f + 1) = INR (fact s) * INR (fact f) / INR (fact (S (s + f)))).
  { pose proof (pos_INR s). pose proof (pos_INR f). rewrite Beta_fun_Gamma by lra. rewrite !Gamma_fun_fact.
    replace (INR s + 1 + (INR f + 1)) with (INR (S (s + f)) + 1) by (rewrite S_INR, plus_INR; ring). now rewrite Gamma_fun_fact. }
  rewrite V.
  assert (X : forall t, 0 <= t <= 1 -> t ^ s * (1 - t) ^ f <= INR (S (s + f)) * (INR (fact s) * INR (fact f) / INR (fact (S (s + f))))).
  { intros t Ht. pose proof (two_outcomes 1 s f t ltac:(lra) Ht). lra. }
  destruct s as [|s].
  { change (INR 0) with 0. rewrite Rpower_0. destruct f as [|f].
    - change (INR 0) with 0. rewrite Rpower_0. specialize (X 0 ltac:(lra)). simpl in *. lra.
    - specialize (X 0 ltac:(lra)). assert (0 < INR (S f)) by (apply lt_0_INR; lia). rewrite Rplus_0_l.
      replace (INR (S f) / INR (S f)) with 1 by (field; lra). rewrite Rpower_1_l. rewrite Rminus_0_r, pow1, pow_O in X. lra. }
  destruct f as [|f].
  { specialize (X 1 ltac:(lra)). assert (0 < INR (S s)) by (apply lt_0_INR; lia). change (INR 0) with 0 at 1 2 3 4. rewrite Rpower_0, Rplus_0_r.
    replace (INR (S s) / INR (S s)) with 1 by (field; lra). rewrite Rpower_1_l. rewrite pow1, pow_O in X. lra. }
  assert (0 < INR (S s)) by (apply lt_0_INR; lia). assert (0 < INR (S f)) by (apply lt_0_INR; lia).
  rewrite !Rpower_pow by (apply Rdiv_lt_0_compat; lra).
  specialize (X (INR (S s) / (INR (S s) + INR (S f)))).
  replace (1 - INR (S s) / (INR (S s) + INR (S f))) with (INR (S f) / (INR (S s) + INR (S f))) in X by (field; lra).
  apply X. split; [apply Rlt_le, Rdiv_lt_0_compat; lra|]. apply Rle_div_l; lra.
Qed.

Lemma kernel_real a f : 0 <= a -> exists s, INR s <= a < INR s + 1 /\
  Rpower (a / (a + INR f)) a * Rpower (INR f / (a + INR f)) (INR f) <= INR (S (s + f)) * Beta_fun (INR s + 1) (INR f + 1).
Proof.
  intros Ha. destruct (nfloor_ex a Ha) as [s Hs]. exists s. split; [exact Hs|].
  destruct f as [|f].
  { replace (Rpower (a / (a + INR 0)) a * Rpower (INR 0 / (a + INR 0)) (INR 0)) with (Rpower (a / (a + 0)) a) by (simpl; rewrite Rpower_0; ring).
    assert (X := kernel_integer s 0). change (INR 0) with 0 in *. rewrite Rpower_0, Rmult_1_r in X.
    eapply Rle_trans; [|exact X]. destruct Ha as [Ha | <-].
    - replace (a / (a + 0)) with 1 by (field; lra). rewrite Rpower_1_l. destruct s as [|s]; [change (INR 0) with 0; rewrite Rpower_0; lra|].
      assert (0 < INR (S s)) by (apply lt_0_INR; lia). replace (INR (S s) / (INR (S s) + 0)) with 1 by (field; lra). rewrite Rpower_1_l. lra.
    - rewrite Rpower_0. assert (INR s = 0) as -> by (pose proof (pos_INR s); lra). rewrite Rpower_0. lra. }
  assert (Hf : 0 < INR (S f)) by (apply lt_0_INR; lia). pose proof (pos_INR s) as Ps.
  destruct Ha as [Ha | <-].
  - set (t := a / (a + INR (S f))).
    assert (Ht : 0 < t < 1) by (unfold t; split; [apply Rdiv_lt_0_compat; lra|apply Rlt_div_l; lra]).
    replace (INR (S f) / (a + INR (S f))) with (1 - t) by (unfold t; field; lra).
    eapply Rle_trans; [apply Rmult_le_compat_r; [left; apply exp_pos|apply (Rpower_anti t (INR s) a Ht); lra]|].
    eapply Rle_trans; [apply beta_kernel_le; lra|]. apply kernel_integer.
  - assert (Z : INR s = 0) by lra. assert (X := kernel_integer s (S f)). rewrite Z in X. rewrite Z. exact X.
Qed.

Lemma beta_factor_le alpha beta m a f : 0 < alpha <= INR m -> 0 < beta <= INR m -> 0 <= a ->
  beta_factor alpha beta a (INR f) <= Beta_fun alpha beta * (a + INR f + 2 * INR m + 2) ^ (2 * m + 1).
Proof.
  intros Ha Hb Pa. unfold beta_factor. pose proof (Beta_fun_pos alpha beta ltac:(lra) ltac:(lra)) as B0.
  destruct (kernel_real a f Pa) as (s & [Hs1 Hs2] & K).
  pose proof (pos_INR s) as Hs. pose proof (pos_INR f) as Hf. pose proof (pos_INR m) as Hm.
  pose proof (Beta_fun_anti (alpha + a) (beta + INR f) (INR s + 1 + INR m) (INR f + 1 + INR m) ltac:(lra) ltac:(lra)) as B1.
  pose proof (Beta_fun_shift m (INR s + 1) (INR f + 1) ltac:(lra) ltac:(lra)) as B2.
  pose proof (Beta_fun_pos (alpha + a) (beta + INR f) ltac:(lra) ltac:(lra)) as B3.
  unfold Rdiv at 1. rewrite Rmult_assoc. apply Rmult_le_compat_l; [lra|].
  apply (Rmult_le_reg_l (Beta_fun (alpha + a) (beta + INR f))); [exact B3|].
  rewrite <- Rmult_assoc, Rinv_r, Rmult_1_l by lra.
  eapply Rle_trans; [exact K|].
  set (T := a + INR f + 2 * INR m + 2).
  assert (HT : 0 < T) by (unfold T; lra).
  replace (2 * m + 1)%nat with (S (2 * m)) by lia. rewrite <- tech_pow_Rmult.
  assert (HP : 0 < T ^ (2 * m)) by (now apply pow_lt).
  replace (Beta_fun (alpha + a) (beta + INR f) * (T * T ^ (2 * m))) with (T * (Beta_fun (alpha + a) (beta + INR f) * T ^ (2 * m))) by ring.
  apply Rmult_le_compat; [apply pos_INR|left; apply Beta_fun_pos; lra| |].
  - unfold T. rewrite S_INR, plus_INR. lra.
  - eapply Rle_trans; [exact B2|]. apply Rmult_le_compat; [left; apply Beta_fun_pos; lra|apply pow_le; lra|lra|]. apply pow_incr. unfold T. lra.
Qed.

Lemma binomial_no_regret prior : 0 < Beta_alpha prior -> 0 < Beta_beta prior ->
  no_regret (fun p (o : nat * nat) => pmf (Binomial_dist (mkBinomial (INR (fst o)) p)) (Z.of_nat (snd o)))
    (fun d o => Ok (binomial_beta (INR (fst o)) (INR (snd o)) d))
    (fun d o => Ok (pmf (BetaBinomial_dist (binomial_beta_predictive (INR (fst o)) d)) (Z.of_nat (snd o))))
    (fun p => 0 < p < 1) (fun o => (snd o <= fst o)%nat) prior (fun data => sumN (map fst data)).
Proof.
  intros Ha Hb. destruct (nfloor_ex (Rmax (Beta_alpha prior) (Beta_beta prior))) as [m0 [_ Hm0]].
  { eapply Rle_trans; [|apply Rmax_l]. lra. }
  set (m := S m0). assert (Hm : Rmax (Beta_alpha prior) (Beta_beta prior) <= INR m) by (unfold m; rewrite S_INR; lra).
  pose proof (Rmax_l (Beta_alpha prior) (Beta_beta prior)). pose proof (Rmax_r (Beta_alpha prior) (Beta_beta prior)).
  pose proof (pos_INR m) as P.
  refine (no_regret_poly _ _ _ _ _ _ _ _ _ 1%nat (Beta_fun (Beta_alpha prior) (Beta_beta prior)) (2 * INR m + 2) (INR (2 * m + 1)) _ _ _ (binomial_any_regret prior Ha Hb) _ _ _).
  - now apply Beta_fun_pos.
  - lra.
  - apply pos_INR.
  - auto.
  - intros data F. destruct (binomial_loop prior Ha Hb data F) as (e & c & E & Hc & _). now exists e, c.
  - intros data F _. cbn beta.
    assert (L : (sumN (map snd data) <= sumN (map fst data))%nat).
    { induction F as [|o l Ho F IH]; [reflexivity|]. unfold sumN in *. simpl. lia. }
    rewrite <- minus_INR by exact L.
    eapply Rle_trans; [apply (beta_factor_le _ _ m); [lra|lra|apply pos_INR]|]. apply Rmult_le_compat_l; [left; now apply Beta_fun_pos|].
    rewrite Rpower_pow by (pose proof (pos_INR (sumN (map fst data))); lra).
    rewrite minus_INR by exact L. right. f_equal. ring.
Qed.

(** ** negative binomial counts *)
Lemma negbin_no_regret major minor micro rest r prior : 0 < r -> (1 < major \/ (major = 1 /\ 12 <= minor))%nat -> 0 < Beta_alpha prior -> 0 < Beta_beta prior ->
  no_regret (fun p (x : nat) => pmf (NegativeBinomial_dist (mkNegativeBinomial r p)) (Z.of_nat x))
    (fun d x => Ok (negative_binomial_beta r 1 (INR x) d))
    (fun d x => let* D := BetaNegativeBinomial_dist (major :: minor :: micro :: rest) (negative_binomial_beta_predictive r d) in Ok (pmf D (Z.of_nat x)))
    (fun p => 0 < p < 1) (fun _ => True) prior (fun data => (length data + sumN data)%nat).
Proof.
  intros Hr Hv Ha Hb. destruct (nfloor_ex (Rmax (Beta_alpha prior) (Beta_beta prior))) as [m0 [_ Hm0]].
  { eapply Rle_trans; [|apply Rmax_l]. lra. }
  set (m := S m0). assert (Hm : Rmax (Beta_alpha prior) (Beta_beta prior) <= INR m) by (unfold m; rewrite S_INR; lra).
  pose proof (Rmax_l (Beta_alpha prior) (Beta_beta prior)). pose proof (Rmax_r (Beta_alpha prior) (Beta_beta prior)).
  pose proof (pos_INR m) as P. pose proof (Beta_fun_pos _ _ Ha Hb) as B0.
  assert (Q : 0 < (r + 1) ^ (2 * m + 1)) by (apply pow_lt; lra).
  refine (no_regret_poly _ _ _ _ _ _ _ _ _ 0%nat (Beta_fun (Beta_alpha prior) (Beta_beta prior) * (r + 1) ^ (2 * m + 1)) (2 * INR m + 2) (INR (2 * m + 1)) _ _ _
    (negbin_regret major minor micro rest r prior Hr Hv Ha Hb) _ _ _).
  - now apply Rmult_lt_0_compat.
  - lra.
  - apply pos_INR.
  - auto.
  - intros data F. destruct (negbin_loop major minor micro rest r prior Hr Hv Ha Hb data F) as (e & c & E & Hc & _). now exists e, c.
  - intros data _ _. cbn beta. pose proof (pos_INR (length data)) as P1. pose proof (pos_INR (sumN data)) as P2.
    eapply Rle_trans; [apply (beta_factor_le _ _ m); [lra|lra|nra]|]. rewrite Rmult_assoc. apply Rmult_le_compat_l; [lra|].
    rewrite plus_INR, Rpower_pow by lra. rewrite <- Rpow_mult_distr. apply pow_incr. nra.
Qed.

(** ** categories *)
Lemma fact_poly N n : INR (fact (N + n)) <= INR (fact N) * INR (N + n) ^ n.
Proof.
  induction n as [|n IH]; [rewrite Nat.add_0_r; simpl; lra|].
  replace (N + S n)%nat with (S (N + n)) by lia. rewrite fact_simpl, mult_INR, <- tech_pow_Rmult.
  replace (INR (fact N) * (INR (S (N + n)) * INR (S (N + n)) ^ n)) with (INR (S (N + n)) * (INR (fact N) * INR (S (N + n)) ^ n)) by ring.
  apply Rmult_le_compat_l; [apply pos_INR|]. eapply Rle_trans; [exact IH|]. apply Rmult_le_compat_l; [apply pos_INR|].
  apply pow_incr. split; [apply pos_INR|]. apply le_INR. lia.
Qed.

Lemma choose_poly N n : Binomial.C (N + n) n <= (INR N + INR n) ^ n.
Proof.
  unfold Binomial.C. replace (N + n - n)%nat with N by lia. pose proof (INR_fact_lt_0 N) as F1. pose proof (INR_fact_lt_0 n) as F2.
  pose proof (fact_poly N n) as F. rewrite plus_INR in F.
  assert (1 <= INR (fact n)) by (apply (le_INR 1); pose proof (lt_O_fact n); lia).
  apply Rle_div_l; [nra|]. eapply Rle_trans; [exact F|].
  assert (0 <= (INR N + INR n) ^ n) by (apply pow_le; pose proof (pos_INR N); pose proof (pos_INR n); lra).
  assert (0 <= (INR (fact n) - 1) * (INR (fact N) * (INR N + INR n) ^ n)) by (apply Rmult_le_pos; [lra|]; apply Rmult_le_pos; lra).
  lra.
Qed.

Lemma choose_power N n : Binomial.C (N + n) n <= 1 * Rpower (INR N + (INR n + 1)) (INR n).
Proof.
  rewrite Rmult_1_l. pose proof (pos_INR N). pose proof (pos_INR n). rewrite Rpower_pow by lra.
  eapply Rle_trans; [apply choose_poly|]. apply pow_incr. lra.
Qed.

Lemma multinomial_no_regret n :
  no_regret multinomial_pmf
    (fun d x => with_alpha (multinomial_dirichlet (CArr (as_array (map INR x)))) d)
    (fun d x => let P := multinomial_dirichlet_predictive (Some (INR (sumN x))) d in
       Ok (dirichlet_multinomial_pmf (alphas n (DirichletMultinomial_alpha P)) (Rnat (DirichletMultinomial_n P)) x))
    (probabilities n) (fun x => length x = S n) (Dirichlet_uninformative (S n)) (fun data => sumN (map sumN data)).
Proof.
  pose proof (pos_INR n).
  refine (no_regret_poly _ _ _ _ _ _ _ _ _ 1%nat 1 (INR n + 1) (INR n) _ _ _ (multinomial_regret n) _ _ _); try lra.
  - auto.
  - intros data F. destruct (multinomial_prequential n _ data (uninformative_dirichlet_ok n) F) as (e & c & E & _ & Hc & _). now exists e, c.
  - intros data _ _. apply choose_power.
Qed.

Lemma categorical_no_regret n :
  no_regret categorical_pmf
    (fun d k => with_alpha (categorical_dirichlet (CArr (as_array (map INR (counts n [k]))))) d)
    (fun d k => let P := categorical_dirichlet_predictive None d in
       Ok (dirichlet_multinomial_pmf (alphas n (DirichletMultinomial_alpha P)) (Rnat (DirichletMultinomial_n P)) (counts n [k])))
    (probabilities n) (fun k => (k <= n)%nat) (Dirichlet_uninformative (S n)) (fun data => length data).
Proof.
  pose proof (pos_INR n).
  refine (no_regret_poly _ _ _ _ _ _ _ _ _ 1%nat 1 (INR n + 1) (INR n) _ _ _ (categorical_regret n) _ _ _); try lra.
  - auto.
  - intros data F. destruct (categorical_prequential n _ data (uninformative_dirichlet_ok n) F) as (e & c & E & _ & Hc & _). now exists e, c.
  - intros data _ _. apply choose_power.
Qed.

(** ** gamma priors *)
Lemma pow_exp_le x k : 0 <= x -> (1 + x) ^ k <= exp (x * INR k).
Proof.
  intros Hx. rewrite <- Rpower_pow by lra. unfold Rpower. apply exp_mono. rewrite Rmult_comm. apply Rmult_le_compat_r; [apply pos_INR|].
  pose proof (ln_le_sub (1 + x) ltac:(lra)). lra.
Qed.

Lemma Gamma_lower s c : 1 <= s -> 0 < c -> Rpower c (s - 1) * exp (- c) <= exp 1 * Gamma_fun s.
Proof.
  intros Hs Hc. assert (G : RInt (gamma_integrand s) c (c + 1) <= Gamma_fun s).
  { apply (is_RInt_gen_ge _ _ _ ends_pos (gamma_integrand s)); try lra.
    - apply cont_gamma_integrand.
    - intros x _. left. apply gamma_integrand_pos.
    - apply is_RInt_gen_Gamma. lra. }
  assert (L : RInt (fun _ => Rpower c (s - 1) * exp (- (c + 1))) c (c + 1) <= RInt (gamma_integrand s) c (c + 1)).
  { apply RInt_le; [lra|apply ex_RInt_const| |].
    - apply (ex_RInt_continuous (V:=R_CompleteNormedModule)). intros z Hz. rewrite Rmin_left, Rmax_right in Hz by lra. apply cont_gamma_integrand. lra.
    - intros x Hx. unfold gamma_integrand. apply Rmult_le_compat; try (left; apply exp_pos).
      + apply Rle_Rpower_l; lra.
      + apply exp_mono. lra. }
  rewrite RInt_const in L. unfold scal in L; simpl in L; unfold mult in L; simpl in L.
  replace (c + 1 - c) with 1 in L by ring. rewrite Rmult_1_l in L.
  replace (Rpower c (s - 1) * exp (- c)) with (exp 1 * (Rpower c (s - 1) * exp (- (c + 1)))).
  - apply Rmult_le_compat_l; [left; apply exp_pos|lra].
  - replace (- c) with (1 + - (c + 1)) by ring. rewrite exp_plus. ring.
Qed.

Lemma gamma_factor_real alpha beta a b : 0 < alpha -> 0 < beta -> 0 < b -> 1 <= a ->
  gamma_factor alpha beta a b <= exp 1 * Gamma_fun alpha * Rpower (1 + b / beta) alpha * exp (beta / b * a) * a.
Proof.
  intros Ha Hbe Hb H1. unfold gamma_factor.
  pose proof (Gamma_fun_pos alpha Ha) as G1. pose proof (Gamma_fun_pos (alpha + a) ltac:(lra)) as G2.
  pose proof (Gamma_lower (alpha + a) a ltac:(lra) ltac:(lra)) as GL.
  assert (Q : 0 < beta / b) by (now apply Rdiv_lt_0_compat). assert (Q1 : 0 < b / beta) by (now apply Rdiv_lt_0_compat).
  assert (E1 : Rpower (beta + b) (alpha + a) / Rpower beta alpha * Rpower (a / b) a = Rpower (1 + b / beta) alpha * Rpower (1 + beta / b) a * Rpower a a).
  { replace (1 + b / beta) with ((beta + b) / beta) by (field; lra). replace (1 + beta / b) with ((beta + b) / b) by (field; lra).
    unfold Rpower, Rdiv. rewrite <- exp_Ropp, <- !exp_plus. f_equal. rewrite !ln_mult, !ln_Rinv by (try apply Rinv_0_lt_compat; lra). ring. }
  assert (E2 : Rpower (1 + beta / b) a <= exp (beta / b * a)).
  { unfold Rpower. apply exp_mono. rewrite (Rmult_comm a). apply Rmult_le_compat_r; [lra|]. pose proof (ln_le_sub (1 + beta / b) ltac:(lra)). lra. }
  assert (E3 : Rpower a a * exp (- a) <= exp 1 * Gamma_fun (alpha + a) * a).
  { replace (Rpower a a * exp (- a)) with (Rpower a (1 - alpha) * (Rpower a (alpha + a - 1) * exp (- a))).
    2: { rewrite <- Rmult_assoc, <- Rpower_plus. f_equal. f_equal. ring. }
    rewrite Rmult_comm. apply Rmult_le_compat; [|left; apply exp_pos|exact GL|].
    - apply Rmult_le_pos; left; apply exp_pos.
    - rewrite <- (Rpower_1 a) at 2 by lra. apply Rle_Rpower; lra. }
  replace (Gamma_fun alpha / Gamma_fun (alpha + a) * (Rpower (beta + b) (alpha + a) / Rpower beta alpha) * (Rpower (a / b) a * exp (- a)))
    with (Gamma_fun alpha / Gamma_fun (alpha + a) * (Rpower (beta + b) (alpha + a) / Rpower beta alpha * Rpower (a / b) a) * exp (- a)) by ring.
  rewrite E1. set (U := Rpower (1 + b / beta) alpha). assert (HU : 0 < U) by apply exp_pos.
  apply (Rmult_le_reg_l (Gamma_fun (alpha + a))); [exact G2|].
  replace (Gamma_fun (alpha + a) * (Gamma_fun alpha / Gamma_fun (alpha + a) * (U * Rpower (1 + beta / b) a * Rpower a a) * exp (- a)))
    with (Gamma_fun alpha * U * (Rpower (1 + beta / b) a * (Rpower a a * exp (- a)))) by (field; lra).
  replace (Gamma_fun (alpha + a) * (exp 1 * Gamma_fun alpha * U * exp (beta / b * a) * a))
    with (Gamma_fun alpha * U * (exp (beta / b * a) * (exp 1 * Gamma_fun (alpha + a) * a))) by ring.
  apply Rmult_le_compat_l; [apply Rmult_le_pos; lra|].
  apply Rmult_le_compat; [left; apply exp_pos|apply Rmult_le_pos; left; apply exp_pos|exact E2|exact E3].
Qed.

Lemma gamma_factor_poly alpha beta a b n A L U : 0 < alpha -> 0 < beta -> 0 < b -> a = 0 \/ 1 <= a -> 1 <= n -> 0 < A -> a <= A * n -> 0 < L -> b <= L * n -> beta / b * a <= U ->
  gamma_factor alpha beta a b <= (exp 1 * Gamma_fun alpha * exp U * A + 1) * Rpower (L / beta) alpha * Rpower (n + beta / L) (alpha + 1).
Proof.
  intros Ha Hbe Hb H1 Hn HA HAn HL HbL HU. pose proof (Gamma_fun_pos alpha Ha) as G1.
  assert (Q : 0 < beta / b) by (now apply Rdiv_lt_0_compat). assert (Q1 : 0 < b / beta) by (now apply Rdiv_lt_0_compat).
  assert (Q2 : 0 < L / beta) by (now apply Rdiv_lt_0_compat). assert (Q3 : 0 < beta / L) by (now apply Rdiv_lt_0_compat).
  assert (W : Rpower (1 + b / beta) alpha <= Rpower (L / beta) alpha * Rpower (n + beta / L) alpha).
  { rewrite Rpower_mult_distr by lra. apply Rle_Rpower_l; [lra|]. split; [lra|].
    replace (L / beta * (n + beta / L)) with (1 + L * n / beta) by (field; lra).
    apply Rplus_le_compat_l. apply Rmult_le_compat_r; [left; now apply Rinv_0_lt_compat|exact HbL]. }
  rewrite Rpower_plus, Rpower_1 by lra.
  set (X := Rpower (L / beta) alpha * Rpower (n + beta / L) alpha) in *. assert (HX : 0 < X) by (apply Rmult_lt_0_compat; apply exp_pos).
  replace ((exp 1 * Gamma_fun alpha * exp U * A + 1) * Rpower (L / beta) alpha * (Rpower (n + beta / L) alpha * (n + beta / L)))
    with ((exp 1 * Gamma_fun alpha * exp U * A + 1) * X * (n + beta / L)) by (unfold X; ring).
  set (Y := exp 1 * Gamma_fun alpha). assert (HY : 0 < Y) by (apply Rmult_lt_0_compat; [apply exp_pos|exact G1]).
  assert (HY2 : 0 < Y * exp U * A) by (apply Rmult_lt_0_compat; [apply Rmult_lt_0_compat; [exact HY|apply exp_pos]|exact HA]).
  destruct H1 as [-> | H1].
  - unfold gamma_factor. rewrite Rplus_0_r, Rpower_0, Ropp_0, exp_0.
    replace (Gamma_fun alpha / Gamma_fun alpha * (Rpower (beta + b) alpha / Rpower beta alpha) * (1 * 1)) with (Rpower (1 + b / beta) alpha).
    + eapply Rle_trans; [exact W|]. replace ((Y * exp U * A + 1) * X * (n + beta / L)) with (X * ((Y * exp U * A + 1) * (n + beta / L))) by ring.
      rewrite <- (Rmult_1_r X) at 1. apply Rmult_le_compat_l; [lra|]. nra.
    + replace (1 + b / beta) with ((beta + b) * / beta) by (field; lra). rewrite <- Rpower_mult_distr by (try apply Rinv_0_lt_compat; lra).
      replace (Rpower (/ beta) alpha) with (/ Rpower beta alpha) by (unfold Rpower; rewrite ln_Rinv by lra; rewrite <- exp_Ropp; f_equal; ring).
      field. split; [apply Rgt_not_eq, exp_pos|lra].
  - eapply Rle_trans; [now apply gamma_factor_real|]. fold Y.
    apply Rle_trans with (Y * X * exp U * (A * n)).
    + apply Rmult_le_compat; [|lra| |exact HAn].
      * apply Rmult_le_pos; [apply Rmult_le_pos; [lra|left; apply exp_pos]|left; apply exp_pos].
      * apply Rmult_le_compat; [apply Rmult_le_pos; [lra|left; apply exp_pos]|left; apply exp_pos| |now apply exp_mono].
        apply Rmult_le_compat_l; [lra|exact W].
    + replace (Y * X * exp U * (A * n)) with ((Y * exp U * A) * X * n) by ring.
      apply Rmult_le_compat; [apply Rmult_le_pos; lra|lra| |lra]. apply Rmult_le_compat_r; lra.
Qed.

Lemma poly_const_pos alpha beta U A L : 0 < alpha -> 0 < A -> 0 < (exp 1 * Gamma_fun alpha * exp U * A + 1) * Rpower (L / beta) alpha.
Proof.
  intros Ha HA. apply Rmult_lt_0_compat; [|apply exp_pos]. pose proof (Gamma_fun_pos alpha Ha).
  assert (0 < exp 1 * Gamma_fun alpha * exp U * A); [|lra]. repeat apply Rmult_lt_0_compat; try assumption; apply exp_pos.
Qed.

Lemma poisson_no_regret prior M : 0 < Gamma_alpha prior -> 0 < Gamma_beta prior ->
  no_regret (fun lam (x : nat) => pmf (Poisson_dist (mkPoisson lam)) (Z.of_nat x))
    (fun d x => Ok (poisson_gamma (INR x) 1 d))
    (fun d x => Ok (pmf (NegativeBinomial_dist (poisson_gamma_predictive d 1)) (Z.of_nat x)))
    (fun t => 0 < t) (fun x => (x <= M)%nat) prior (fun data => length data).
Proof.
  intros Ha Hb. pose proof (pos_INR M) as PM.
  refine (no_regret_poly _ _ _ _ (fun _ => True) _ _ _ _ 1%nat _ (Gamma_beta prior / 1) (Gamma_alpha prior + 1)
    (poly_const_pos (Gamma_alpha prior) (Gamma_beta prior) (Gamma_beta prior * INR M) (INR M + 1) 1 Ha _) _ _ (poisson_regret prior Ha Hb) _ _ _); try lra.
  - auto.
  - intros data F. destruct (poisson_loop prior Ha Hb data F) as (e & c & E & Hc & _). now exists e, c.
  - intros data F Hn. apply le_INR in Hn. change (INR 1) with 1 in Hn.
    assert (L : (sumN data <= length data * M)%nat).
    { clear Hn. induction F as [|x l Hx F IH]; [reflexivity|]. unfold sumN in *. simpl. lia. }
    apply le_INR in L. rewrite mult_INR in L.
    apply gamma_factor_poly; try lra.
    + destruct (sumN data) as [|k]; [now left|]. right. apply (le_INR 1). lia.
    + replace (Gamma_beta prior / INR (length data) * INR (sumN data)) with (Gamma_beta prior * (INR (sumN data) / INR (length data))) by (field; lra).
      apply Rmult_le_compat_l; [lra|]. apply Rle_div_l; lra.
Qed.

Lemma known_shape_no_regret shape prior m M : 0 < shape -> 0 < Gamma_alpha prior -> 0 < Gamma_beta prior -> 0 < m ->
  no_regret (fun rate x => pdf (Gamma_dist (mkGamma shape rate)) x)
    (fun d x => Ok (gamma_known_shape x 1 shape d))
    (fun d x => Ok (pdf (CompoundGamma_dist (gamma_known_shape_predictive d shape)) x))
    (fun t => 0 < t) (fun x => m <= x <= M) prior (fun data => length data).
Proof.
  intros Hk Ha Hb Hm.
  set (L := Rmax m M). assert (HL : m <= L) by apply Rmax_l. assert (HL2 : M <= L) by apply Rmax_r.
  destruct (nfloor_ex (/ shape) ltac:(left; now apply Rinv_0_lt_compat)) as [N1 [_ HN1]].
  refine (no_regret_poly _ _ _ _ (fun x => 0 < x) _ _ _ _ (S N1) _ (Gamma_beta prior / L) (Gamma_alpha prior + 1)
    (poly_const_pos (Gamma_alpha prior) (Gamma_beta prior) (Gamma_beta prior / m * shape) shape L Ha Hk) _ _ (known_shape_regret shape prior Hk Ha Hb) _ _ _); try lra.
  - apply Rdiv_lt_0_compat; lra.
  - intros x Hx. lra.
  - intros data F. destruct (known_shape_loop shape prior Hk Ha Hb data F) as (e & c & E & Hc & _). now exists e, c.
  - intros data F Hn. apply le_INR in Hn. rewrite S_INR in Hn. pose proof (pos_INR N1) as P1.
    assert (S : m * INR (length data) <= sumR data <= L * INR (length data)).
    { clear Hn. induction F as [|x l Hx F IH]; [unfold sumR; simpl; lra|]. unfold sumR in *. cbn [length fold_right]. rewrite S_INR. lra. }
    assert (S0 : 0 < sumR data) by nra.
    apply gamma_factor_poly; try lra.
    + right. apply (Rmult_le_reg_r (/ shape)); [now apply Rinv_0_lt_compat|]. rewrite Rmult_assoc, Rinv_r by lra. lra.
    + replace (Gamma_beta prior / sumR data * (INR (length data) * shape)) with (Gamma_beta prior / m * shape * (m * INR (length data) / sumR data)) by (field; lra).
      assert (0 <= Gamma_beta prior / m * shape) by (apply Rmult_le_pos; [left; apply Rdiv_lt_0_compat|]; lra).
      rewrite <- (Rmult_1_r (Gamma_beta prior / m * shape)) at 2. apply Rmult_le_compat_l; [assumption|]. apply Rle_div_l; lra.
Qed.

Lemma scatter_bounds mu data m M : 0 <= m -> Forall (fun x => m <= Rabs (x - mu) <= M) data ->
  m ^ 2 * INR (length data) <= scatter mu data <= M ^ 2 * INR (length data).
Proof.
  intros Hm F. unfold scatter. induction F as [|x l Hx F IH]; [unfold sumR; simpl; lra|]. unfold sumR in *. cbn [map length fold_right]. rewrite S_INR.
  assert (m ^ 2 <= (x - mu) ^ 2 <= M ^ 2).
  { rewrite <- (pow2_abs (x - mu)). split; apply pow_incr; [lra|]. split; [apply Rabs_pos|lra]. }
  lra.
Qed.

Lemma known_mean_no_regret mu prior m M : variance_ok prior -> 0 < m ->
  no_regret (fun v x => pdf (Normal_dist (mkNormal mu (sqrt v))) x)
    (fun d x => Ok (normal_known_mean x (x ^ 2) 1 mu d))
    (fun d x => Ok (pdf (StudentT_dist (normal_known_mean_predictive mu d)) x))
    (fun v => 0 < v) (fun x => m <= Rabs (x - mu) <= M) prior (fun data => length data).
Proof.
  intros ok Hm. destruct (variance_dist_pdf prior ok) as (_ & Ha & Hb).
  set (L := Rmax m M). assert (HL : m <= L) by apply Rmax_l. assert (HL2 : M <= L) by apply Rmax_r.
  assert (L2 : 0 < L ^ 2) by (apply pow_lt; lra). assert (m2 : 0 < m ^ 2) by (apply pow_lt; lra).
  refine (no_regret_poly _ _ _ _ (fun x => x <> mu) _ _ _ _ 2%nat _ (variance_scale prior / (L ^ 2)) (variance_shape prior + 1)
    (poly_const_pos (variance_shape prior) (variance_scale prior) (variance_scale prior / m ^ 2) 1 (L ^ 2) Ha Rlt_0_1) _ _ (variance_regret mu prior ok) _ _ _); try lra.
  - apply Rdiv_lt_0_compat; lra.
  - intros x Hx ->. rewrite Rminus_eq_0, Rabs_R0 in Hx. lra.
  - intros data F. destruct (variance_closed mu prior ok data) as (e & c & E & Hc & _). now exists e, c.
  - intros data F Hn. apply le_INR in Hn. change (INR 2) with 2 in Hn. cbn beta. fold (scatter mu data).
    pose proof (scatter_bounds mu data m M ltac:(lra) F) as S.
    assert (S' : scatter mu data <= L ^ 2 * INR (length data)).
    { eapply Rle_trans; [apply S|]. apply Rmult_le_compat_r; [lra|].
      destruct data as [|x l]; [simpl in Hn; lra|]. inversion F; subst. apply pow_incr. pose proof (Rabs_pos (x - mu)). lra. }
    assert (S0 : 0 < scatter mu data) by nra.
    apply gamma_factor_poly; try lra.
    replace (variance_scale prior / (scatter mu data / 2) * (INR (length data) / 2)) with (variance_scale prior / m ^ 2 * (m ^ 2 * INR (length data) / scatter mu data)) by (field; lra).
    assert (0 <= variance_scale prior / m ^ 2) by (left; apply Rdiv_lt_0_compat; lra).
    rewrite <- (Rmult_1_r (variance_scale prior / m ^ 2)) at 2. apply Rmult_le_compat_l; [assumption|]. apply Rle_div_l; lra.
Qed.

(** ** normal data of known variance *)
Lemma normal_factor_poly var mu sigma K data : 0 < var -> 0 < sigma -> data <> [] -> Forall (fun x => Rabs (x - mu) <= K) data ->
  normal_factor var mu sigma data <= exp (K ^ 2 / (2 * sigma ^ 2)) * Rpower (sigma ^ 2 / var) (/ 2) * Rpower (INR (length data) + var / sigma ^ 2) (/ 2).
Proof.
  intros Hv Hs Nd F. unfold normal_factor. set (n := INR (length data)).
  assert (Hn : 0 < n) by (apply lt_0_INR; destruct data; [congruence|simpl; lia]).
  assert (S2 : 0 < sigma ^ 2) by (now apply pow_lt).
  assert (Q : 0 < sigma ^ 2 / var) by (now apply Rdiv_lt_0_compat). assert (Q' : 0 < var / sigma ^ 2) by (now apply Rdiv_lt_0_compat).
  assert (B : Rabs (sumR data / n - mu) <= K).
  { assert (W : Rabs (sumR data - n * mu) <= K * n).
    { unfold n. clear -F. induction F as [|x l Hx F IH]; [unfold sumR; simpl; rewrite Rmult_0_l, Rminus_0_r, Rabs_R0; lra|].
      unfold sumR in *. cbn [length fold_right]. rewrite S_INR.
      replace (x + fold_right Rplus 0 l - (INR (length l) + 1) * mu) with ((x - mu) + (fold_right Rplus 0 l - INR (length l) * mu)) by ring.
      eapply Rle_trans; [apply Rabs_triang|]. lra. }
    replace (sumR data / n - mu) with ((sumR data - n * mu) / n) by (field; lra). unfold Rdiv. rewrite Rabs_mult, (Rabs_right (/ n)) by (left; now apply Rinv_0_lt_compat).
    apply Rle_div_l; [exact Hn|]. exact W. }
  assert (B2 : (sumR data / n - mu) ^ 2 <= K ^ 2).
  { rewrite <- (pow2_abs (sumR data / n - mu)). apply pow_incr. split; [apply Rabs_pos|exact B]. }
  rewrite (Rmult_comm (exp (K ^ 2 / (2 * sigma ^ 2)))), Rmult_assoc, (Rmult_comm (exp _)), <- Rmult_assoc.
  apply Rmult_le_compat; [apply sqrt_pos|left; apply exp_pos| |].
  - rewrite Rpower_mult_distr by lra. rewrite Rpower_sqrt by (apply Rmult_lt_0_compat; lra). right. f_equal. field. lra.
  - apply exp_mono. apply Rle_div_l; [nra|]. replace (K ^ 2 / (2 * sigma ^ 2) * (2 * (var + n * sigma ^ 2))) with (K ^ 2 * n + K ^ 2 * (var / sigma ^ 2)) by (field; lra).
    pose proof (pow2_ge_0 K). nra.
Qed.

Lemma normal_no_regret var prior K : 0 < var -> 0 < Normal_sigma prior ->
  no_regret (fun m x => pdf (Normal_dist (mkNormal m (sqrt var))) x)
    (fun d x => Ok (normal_known_variance x 1 var d))
    (fun d x => Ok (pdf (Normal_dist (normal_known_variance_predictive var d)) x))
    (fun _ => True) (fun x => Rabs (x - Normal_mu prior) <= K) prior (fun data => length data).
Proof.
  intros Hv Hs. assert (S2 : 0 < Normal_sigma prior ^ 2) by (now apply pow_lt).
  refine (no_regret_poly _ _ _ _ (fun _ => True) _ _ _ _ 1%nat (exp (K ^ 2 / (2 * Normal_sigma prior ^ 2)) * Rpower (Normal_sigma prior ^ 2 / var) (/ 2)) (var / Normal_sigma prior ^ 2) (/ 2)
    _ _ _ (normal_regret var prior Hv Hs) _ _ _); try lra.
  - apply Rmult_lt_0_compat; apply exp_pos.
  - now apply Rdiv_lt_0_compat.
  - auto.
  - intros data F. destruct (normal_known_variance_prequential var Hv prior data Hs F) as (e & c & E & _ & Hc & _). now exists e, c.
  - intros data F Hn. apply normal_factor_poly; auto. intros ->. simpl in Hn. lia.
Qed.

(** without a bound on the observations there is regret *)
Lemma normal_unbounded var prior : 0 < var -> 0 < Normal_sigma prior ->
  ~ no_regret (fun m x => pdf (Normal_dist (mkNormal m (sqrt var))) x)
    (fun d x => Ok (normal_known_variance x 1 var d))
    (fun d x => Ok (pdf (Normal_dist (normal_known_variance_predictive var d)) x))
    (fun _ => True) (fun _ => True) prior (fun data => length data).
Proof.
  intros Hv Hs NR. destruct (NR 1 Rlt_0_1) as [N HN]. set (n := INR (S N)).
  assert (Hn : 0 < n) by (apply lt_0_INR; lia). assert (S2 : 0 < Normal_sigma prior ^ 2) by (now apply pow_lt).
  set (V := var + n * Normal_sigma prior ^ 2). assert (HV : 0 < V) by (unfold V; nra).
  set (x := Normal_mu prior + sqrt (4 * V)).
  set (data := repeat x (S N)). assert (L : length data = S N) by apply repeat_length.
  assert (Sm : sumR data = n * x).
  { unfold data, n. generalize (S N). intros k. induction k as [|k IH]; [unfold sumR; simpl; ring|]. unfold sumR in *. cbn [repeat fold_right]. rewrite IH, S_INR. ring. }
  destruct (HN data ltac:(apply Forall_forall; auto) ltac:(lia)) as (e & c & E & H). specialize (H x Logic.I).
  destruct (normal_regret_exact var prior data Hv Hs ltac:(unfold data; discriminate)) as (e' & c' & E' & Hc & Q).
  rewrite E in E'. injection E' as <- <-. rewrite (Q x) in H. rewrite L, Sm in H. fold n in H.
  replace (n * x / n) with x in H by (field; lra).
  replace (- (n * (x - x) ^ 2 / (2 * var))) with 0 in H by (field; lra). rewrite exp_0, Rmult_1_r in H.
  apply Rmult_le_reg_r in H; [|exact Hc]. unfold normal_factor in H. rewrite L, Sm in H. fold n V in H.
  replace (n * x / n) with x in H by (field; lra).
  replace (x - Normal_mu prior) with (sqrt (4 * V)) in H by (unfold x; ring). rewrite pow2_sqrt in H by lra.
  replace (n * (4 * V) / (2 * V)) with (2 * n) in H by (field; lra).
  assert (1 <= sqrt (V / var)).
  { rewrite <- sqrt_1. apply sqrt_le_1_alt. apply Rle_div_r; [exact Hv|]. unfold V. nra. }
  assert (exp (1 * n) < exp (2 * n)) by (apply exp_increasing; lra). pose proof (exp_pos (2 * n)). nra.
Qed.

(** ** normal data of unknown mean and variance *)
Lemma mean_bound mu K data : data <> [] -> Forall (fun x => Rabs (x - mu) <= K) data -> Rabs (sumR data / INR (length data) - mu) <= K.
Proof.
  intros Nd F. set (n := INR (length data)). assert (Hn : 0 < n) by (apply lt_0_INR; destruct data; [congruence|simpl; lia]).
  assert (W : Rabs (sumR data - n * mu) <= K * n).
  { unfold n. clear -F. induction F as [|x l Hx F IH]; [unfold sumR; simpl; rewrite Rmult_0_l, Rminus_0_r, Rabs_R0; lra|].
    unfold sumR in *. cbn [length fold_right]. rewrite S_INR.
    replace (x + fold_right Rplus 0 l - (INR (length l) + 1) * mu) with ((x - mu) + (fold_right Rplus 0 l - INR (length l) * mu)) by ring.
    eapply Rle_trans; [apply Rabs_triang|]. lra. }
  replace (sumR data / n - mu) with ((sumR data - n * mu) / n) by (field; lra). unfold Rdiv. rewrite Rabs_mult, (Rabs_right (/ n)) by (left; now apply Rinv_0_lt_compat).
  apply Rle_div_l; [exact Hn|]. exact W.
Qed.

Lemma spread_differs mu K s data : 0 < s -> data <> [] -> spread_data mu K s data -> not_all_equal data.
Proof.
  intros Hs Nd [_ H]. fold (scatter (sumR data / INR (length data)) data) in H.
  destruct data as [|x l]; [congruence|].
  destruct (Forall_dec (fun y => y = x) (fun y => Req_EM_T y x) l) as [A|A].
  - exfalso. assert (E : x :: l = repeat x (S (length l))).
    { simpl. f_equal. clear -A. induction A as [|y l Hy A IH]; [reflexivity|]. simpl. now rewrite Hy, <- IH. }
    rewrite E in H. set (N := S (length l)) in *. rewrite repeat_length in H.
    assert (P : 0 < INR N) by (apply lt_0_INR; unfold N; lia).
    assert (Sm : sumR (repeat x N) = INR N * x).
    { generalize N. intros k. induction k as [|k IH]; [unfold sumR; simpl; ring|]. unfold sumR in *. cbn [repeat fold_right]. rewrite IH, S_INR. ring. }
    rewrite Sm in H. replace (INR N * x / INR N) with x in H by (field; lra).
    assert (Z : scatter x (repeat x N) = 0).
    { unfold scatter. generalize N. intros k. induction k as [|k IH]; [reflexivity|]. unfold sumR in *. cbn [repeat map fold_right]. rewrite IH. ring. }
    rewrite Z in H. nra.
  - apply neg_Forall_Exists_neg in A; [|intros y; destruct (Req_EM_T y x); [now left|now right]].
    apply Exists_exists in A. destruct A as (y & Hy & Ne). exists y, x. split; [now right|]. split; [now left|]. exact Ne.
Qed.

Lemma joint_factor_poly mu nu alpha beta K s data : 0 < nu -> 0 < alpha -> 0 < beta -> 0 < s -> (2 <= length data)%nat -> spread_data mu K s data ->
  let B := beta + nu * K ^ 2 / 2 in
  joint_factor mu nu alpha beta data <=
    / nu * (Rpower B alpha / Rpower beta alpha) * ((exp 1 * Gamma_fun alpha * exp (B / s) * 1 + 1) * Rpower ((K ^ 2 + 1) / B) alpha) *
    Rpower (INR (length data) + (nu + B / (K ^ 2 + 1))) (alpha + 2).
Proof.
  intros Hnu Ha Hb Hs Hn [F HS] B. unfold joint_factor. set (n := INR (length data)) in *. set (mean := sumR data / n) in *.
  assert (Nd : data <> []) by (intros ->; simpl in Hn; lia).
  apply le_INR in Hn. fold n in Hn. change (INR 2) with 2 in Hn.
  change (sumR (map (fun x => (x - mean) ^ 2) data)) with (scatter mean data) in *. set (S := scatter mean data) in *.
  assert (S0 : 0 < S) by (assert (0 < s * n) by (apply Rmult_lt_0_compat; lra); lra).
  pose proof (pow2_ge_0 K) as K2. assert (HB : 0 < B) by (unfold B; assert (0 <= nu * K ^ 2) by (apply Rmult_le_pos; lra); lra).
  assert (SK : S <= K ^ 2 * n).
  { assert (E : scatter mu data = S + n * (mu - mean) ^ 2) by exact (scatter_shift mu data Nd).
    assert (scatter mu data <= K ^ 2 * n).
    { apply (scatter_bounds mu data 0 K); [lra|]. eapply Forall_impl; [|exact F]. intros x Hx. split; [apply Rabs_pos|exact Hx]. }
    assert (0 <= n * (mu - mean) ^ 2) by (apply Rmult_le_pos; [lra|apply pow2_ge_0]). lra. }
  assert (M2 : (mean - mu) ^ 2 <= K ^ 2).
  { rewrite <- (pow2_abs (mean - mu)). apply pow_incr. split; [apply Rabs_pos|]. now apply mean_bound. }
  assert (Hb' : beta + S / 2 + nu * n * (mean - mu) ^ 2 / (2 * (nu + n)) <= B + S / 2).
  { unfold B. enough (nu * n * (mean - mu) ^ 2 / (2 * (nu + n)) <= nu * K ^ 2 / 2) by lra.
    apply Rle_div_l; [lra|]. replace (nu * K ^ 2 / 2 * (2 * (nu + n))) with (nu * n * K ^ 2 + nu * nu * K ^ 2) by field.
    pose proof (pow2_ge_0 (mean - mu)). assert (nu * n * (mean - mu) ^ 2 <= nu * n * K ^ 2) by (apply Rmult_le_compat_l; nra). nra. }
  assert (Hb0 : 0 < beta + S / 2 + nu * n * (mean - mu) ^ 2 / (2 * (nu + n))).
  { assert (0 <= nu * n * (mean - mu) ^ 2 / (2 * (nu + n))); [|lra]. apply Rmult_le_pos; [|left; apply Rinv_0_lt_compat; lra].
    apply Rmult_le_pos; [nra|apply pow2_ge_0]. }
  pose proof (gamma_factor_poly alpha B (n / 2) (S / 2) n 1 (K ^ 2 + 1) (B / s) Ha HB ltac:(lra) ltac:(right; lra) ltac:(lra) Rlt_0_1 ltac:(lra) ltac:(lra) ltac:(nra)) as GP.
  assert (HU : B / (S / 2) * (n / 2) <= B / s).
  { replace (B / (S / 2) * (n / 2)) with (B / s * (s * n / S)) by (field; lra).
    assert (0 <= B / s) by (left; now apply Rdiv_lt_0_compat). rewrite <- (Rmult_1_r (B / s)) at 2. apply Rmult_le_compat_l; [assumption|]. apply Rle_div_l; lra. }
  specialize (GP HU). set (C := (exp 1 * Gamma_fun alpha * exp (B / s) * 1 + 1) * Rpower ((K ^ 2 + 1) / B) alpha) in *.
  assert (HC : 0 < C) by (apply poly_const_pos; lra).
  pose proof (Gamma_fun_pos alpha Ha) as G1. pose proof (Gamma_fun_pos (alpha + n / 2) ltac:(lra)) as G2.
  assert (PB : 0 < Rpower B alpha) by apply exp_pos. assert (Pb : 0 < Rpower beta alpha) by apply exp_pos.
  assert (Sq : 0 <= sqrt ((nu + n) / nu) <= / nu * (n + nu)).
  { split; [apply sqrt_pos|]. assert (1 <= (nu + n) / nu) by (apply Rle_div_r; lra).
    replace (/ nu * (n + nu)) with ((nu + n) / nu) by (field; lra). rewrite <- (sqrt_square ((nu + n) / nu)) at 2 by lra. apply sqrt_le_1_alt. nra. }
  set (X := beta + S / 2 + nu * n * (mean - mu) ^ 2 / (2 * (nu + n))) in *.
  assert (J : Gamma_fun alpha / Gamma_fun (alpha + n / 2) * (Rpower X (alpha + n / 2) / Rpower beta alpha) * (Rpower (n / S) (n / 2) * exp (- (n / 2)))
     <= (Rpower B alpha / Rpower beta alpha) * gamma_factor alpha B (n / 2) (S / 2)).
  { unfold gamma_factor. replace (n / 2 / (S / 2)) with (n / S) by (field; lra).
    replace (Rpower B alpha / Rpower beta alpha * (Gamma_fun alpha / Gamma_fun (alpha + n / 2) * (Rpower (B + S / 2) (alpha + n / 2) / Rpower B alpha) * (Rpower (n / S) (n / 2) * exp (- (n / 2)))))
      with (Gamma_fun alpha / Gamma_fun (alpha + n / 2) * (Rpower (B + S / 2) (alpha + n / 2) / Rpower beta alpha) * (Rpower (n / S) (n / 2) * exp (- (n / 2)))) by (field; lra).
    apply Rmult_le_compat_r; [apply Rmult_le_pos; left; apply exp_pos|]. apply Rmult_le_compat_l; [left; now apply Rdiv_lt_0_compat|].
    apply Rmult_le_compat_r; [left; now apply Rinv_0_lt_compat|]. apply Rle_Rpower_l; [lra|]. split; [exact Hb0|exact Hb']. }
  set (c := nu + B / (K ^ 2 + 1)). assert (Hc : 0 < B / (K ^ 2 + 1)) by (apply Rdiv_lt_0_compat; lra).
  assert (E2 : Rpower (n + c) (alpha + 2) = (n + c) * Rpower (n + c) (alpha + 1)).
  { replace (alpha + 2) with (1 + (alpha + 1)) by ring. rewrite Rpower_plus, Rpower_1 by (unfold c; lra). reflexivity. }
  rewrite E2.
  assert (E3 : Rpower (n + B / (K ^ 2 + 1)) (alpha + 1) <= Rpower (n + c) (alpha + 1)) by (apply Rle_Rpower_l; unfold c; lra).
  set (D := Rpower B alpha / Rpower beta alpha) in *. assert (HD : 0 < D) by (now apply Rdiv_lt_0_compat).
  rewrite Rmult_assoc, (Rmult_assoc (sqrt _)), <- (Rmult_assoc (Gamma_fun alpha / _)).
  apply Rle_trans with (/ nu * (n + nu) * (D * (C * Rpower (n + c) (alpha + 1)))).
  - apply Rmult_le_compat; [apply Sq| |apply Sq|].
    + apply Rmult_le_pos; [|apply Rmult_le_pos; left; apply exp_pos].
      apply Rmult_le_pos; left; [now apply Rdiv_lt_0_compat|apply Rdiv_lt_0_compat; apply exp_pos].
    + eapply Rle_trans; [exact J|]. apply Rmult_le_compat_l; [lra|]. eapply Rle_trans; [exact GP|]. apply Rmult_le_compat_l; lra.
  - replace (/ nu * D * C * ((n + c) * Rpower (n + c) (alpha + 1))) with (/ nu * (n + c) * (D * (C * Rpower (n + c) (alpha + 1)))) by ring.
    apply Rmult_le_compat_r; [apply Rmult_le_pos; [lra|apply Rmult_le_pos; [lra|left; apply exp_pos]]|].
    apply Rmult_le_compat_l; [left; now apply Rinv_0_lt_compat|]. unfold c. lra.
Qed.

Definition prior_centre {M} (d : NormalPrior R M) : R := match d with PNIG d => NormalInverseGamma_mu d | PNG d => NormalGamma_mu d end.

Lemma normal_joint_no_regret {M} (prior : NormalPrior R M) mu K s : normal_prior_ok prior -> 0 < s ->
  no_regret_for (fun p x => pdf (Normal_dist (mkNormal (fst p) (normal_obs_sd prior (snd p)))) x)
    (fun d x => normal x (x ^ 2) 1 d)
    (fun d x => let* t := normal_predictive d in Ok (pdf (StudentT_dist t) x))
    (fun p => 0 < snd p) prior (fun data => length data) (spread_data mu K s).
Proof.
  intros ok Hs.
  set (K' := K + Rabs (mu - prior_centre prior)).
  assert (Recentre : forall data, spread_data mu K s data -> spread_data (prior_centre prior) K' s data).
  { intros data [F H]. split; [|exact H]. eapply Forall_impl; [|exact F]. intros x Hx. unfold K'.
    replace (x - prior_centre prior) with ((x - mu) + (mu - prior_centre prior)) by ring. eapply Rle_trans; [apply Rabs_triang|]. lra. }
  assert (Poly : exists C c k, 0 < C /\ 0 < c /\ 0 <= k /\ forall data, (2 <= length data)%nat -> spread_data (prior_centre prior) K' s data ->
     normal_joint_factor prior data <= C * Rpower (INR (length data) + c) k).
  { assert (H : forall m nu a b, 0 < nu -> 0 < a -> 0 < b -> exists C c k, 0 < C /\ 0 < c /\ 0 <= k /\ forall data, (2 <= length data)%nat -> spread_data m K' s data ->
       joint_factor m nu a b data <= C * Rpower (INR (length data) + c) k).
    { intros m nu a b Hnu Ha Hb. pose proof (pow2_ge_0 K'). assert (0 < b + nu * K' ^ 2 / 2) by nra.
      eexists _, _, (a + 2). split; [|split; [|split; [lra|intros data Hn Hd; exact (joint_factor_poly m nu a b K' s data Hnu Ha Hb Hs Hn Hd)]]].
      - repeat apply Rmult_lt_0_compat; try apply exp_pos; [now apply Rinv_0_lt_compat|apply Rinv_0_lt_compat, exp_pos|].
        pose proof (Gamma_fun_pos a Ha). match goal with |- 0 < ?u + 1 => assert (0 < u); [|lra] end.
        repeat apply Rmult_lt_0_compat; try apply exp_pos; lra.
      - apply Rplus_lt_0_compat; [exact Hnu|]. apply Rdiv_lt_0_compat; lra. }
    destruct prior as [[m a b di onu]|[m nu a b]]; cbn in *.
    - destruct ok as (_ & (nu & -> & Hnu) & Ha & Hb). now apply H.
    - destruct ok as (Hnu & Ha & Hb). now apply H. }
  destruct Poly as (C & c & k & HC & Hc & Hk & HP).
  intros eps He. destruct (power_small C c k eps HC Hc Hk He) as [N HN]. exists (2 + N)%nat. intros data G Hl.
  assert (Nd : data <> []) by (intros ->; simpl in Hl; lia).
  destruct (normal_joint_regret prior ok data (spread_differs mu K s data Hs Nd G)) as (e & c' & E & H).
  destruct (normal_closed prior ok data Nd) as (_ & _ & _ & e2 & c2 & E2 & Hc2 & _). cbv zeta in *. rewrite E in E2. injection E2 as <- <-.
  exists e, c'. split; [exact E|]. intros t Ht. eapply Rle_trans; [exact (H t Ht)|]. apply Rmult_le_compat_r; [lra|].
  eapply Rle_trans; [apply HP; [lia|now apply Recentre]|]. apply HN. lia.
Qed.
