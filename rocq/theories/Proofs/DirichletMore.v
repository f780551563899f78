(** Learning with Dirichlet priors, and sampling from tables of them. *)

From Coq Require Import Reals Lra Lia ZArith.
From Coquelicot Require Import Coquelicot.
From Verif Require Import Model.Num Model.Py Model.NdArray Model.DirichletModel Model.PlotModel Model.Sampling Model.VectorizedDist.
From Verif Require Import Spec.Special Spec.Densities Spec.Bayes Spec.Moments Spec.Simplex Spec.Containers Spec.Prequential Spec.Calibration
  Spec.SimplexMoments.
From Verif Require Import Analysis.Improper Analysis.GammaBeta Analysis.GammaFacts Proofs.Normalised Proofs.Pdfs Proofs.Dirichlet Proofs.Moments
  Proofs.Prequential Proofs.Calibration Proofs.SimplexMoments.
From Coq Require Import List.
Import ListNotations.
Open Scope R_scope.

Lemma map_seq_zip (f g : nat -> R) l : zip_with Rplus (map f l) (map g l) = map (fun i => f i + g i) l.
Proof. unfold zip_with. induction l; simpl; f_equal; auto. Qed.

Lemma row_at (a : nd R) K k i : (i < K)%nat -> nth i (row K k a) 0 = at_index [k; i] a.
Proof.
  intros Hi. rewrite (nth_indep _ 0 (at_index [k; 0%nat] a)) by (unfold row; now rewrite map_length, seq_length).
  unfold row. rewrite (map_nth (fun i => at_index [k; i] a)). now rewrite seq_nth.
Qed.
Lemma row_len (a : nd R) K k : length (row K k a) = K.
Proof. unfold row. now rewrite map_length, seq_length. Qed.

(** tables: every row is updated with its own data *)
Lemma rows_posterior r n (a x : nd R) (data : nat -> list (list nat)) :
  broadcast_shapes (nd_shape a) (nd_shape x) = Some [r; S n] ->
  (forall k, (k < r)%nat -> Forall (fun v => 0 < v) (row (S n) k a)) ->
  (forall k, (k < r)%nat -> Forall (fun x => length x = S n) (data k)) ->
  (forall k, (k < r)%nat -> row (S n) k x = map INR (total n (data k))) ->
  exists out, multinomial_dirichlet (CArr x) (CArr a) = Ok (mkDirichlet (OVal (CArr out))) /\ nd_shape out = [r; S n] /\
    forall k, (k < r)%nat -> simplex_posterior n (dirichlet_pdf (row (S n) k a)) (likelihood multinomial_pmf (data k)) (dirichlet_pdf (row (S n) k out)).
Proof.
  intros B F D X. exists (mkNd [r; S n] (fun i => at_index i a + at_index i x)).
  unfold multinomial_dirichlet, get_dirichlet_posterior_params, py_add, to_array, map2. rewrite B.
  split; [reflexivity|]. split; [reflexivity|]. intros k Hk.
  set (out := mkNd _ _).
  assert (E : row (S n) k out = update (row (S n) k a) (total n (data k))).
  { unfold update. rewrite <- (X k Hk). unfold row. rewrite map_seq_zip. apply map_ext_in. intros i Hi. apply in_seq in Hi.
    rewrite (at_index_row out r (S n) k i) by (auto; lia). reflexivity. }
  rewrite E. apply simplex_posterior_ext with (fun p => prodR (map multinomial_coef (data k)) * cpow p (total n (data k))).
  - intros p (Lp & _). symmetry. apply lik_multinomial; auto.
  - apply dirichlet_bayes; auto.
    + apply row_len.
    + unfold total. now rewrite map_length, seq_length.
    + apply prodR_pos, Forall_map, Forall_forall. intros; apply coef_pos.
Qed.

(** flat arrays: the new alpha *)
Lemma multinomial_flat n (a : nd R) (x : list nat) : nd_shape a = [S n] -> length x = S n ->
  exists out, multinomial_dirichlet (CArr (as_array (map INR x))) (CArr a) = Ok (mkDirichlet (OVal (CArr out))) /\
    nd_shape out = [S n] /\ flat (S n) out = update (flat (S n) a) x.
Proof.
  intros Sh L. unfold multinomial_dirichlet, get_dirichlet_posterior_params, py_add, to_array, map2.
  assert (B : broadcast_shapes (nd_shape a) (nd_shape (as_array (map INR x))) = Some [S n]).
  { rewrite Sh. unfold as_array. cbn [nd_shape]. rewrite map_length, L. unfold broadcast_shapes. simpl. now rewrite Nat.eqb_refl. }
  rewrite B. eexists. split; [reflexivity|]. split; [reflexivity|].
  unfold update. transitivity (zip_with Rplus (flat (S n) a) (map (fun i => at_index [i] (as_array (map INR x))) (seq 0 (S n)))).
  - unfold flat at 2. rewrite map_seq_zip. unfold flat. apply map_ext_in. intros i Hi. apply in_seq in Hi.
    rewrite (at_index_flat _ (S n) i) by (auto; lia). reflexivity.
  - f_equal. transitivity (map (fun i => nth i (map INR x) 0) (seq 0 (length (map INR x)))).
    + rewrite map_length, L. apply map_ext_in. intros i Hi. apply in_seq in Hi.
      rewrite (at_index_flat _ (S n) i); [reflexivity| |lia]. unfold as_array. cbn [nd_shape]. now rewrite map_length, L.
    + apply map_seq_nth.
Qed.

Lemma simplex_mean_unique n i f m m' : is_simplex_mean n i f m -> is_simplex_mean n i f m' -> m = m'.
Proof. apply simplex_uniq. lra. Qed.
Lemma simplex_variance_unique n i f v v' : is_simplex_variance n i f v -> is_simplex_variance n i f v' -> v = v'.
Proof.
  intros (m & M & V) (m' & M' & V'). assert (m' = m) by (eapply simplex_mean_unique; eauto). subst m'.
  apply (simplex_uniq n 1 _ _ _ Rlt_0_1 V V').
Qed.

Lemma between_average a A x N : 0 < A -> 0 < N -> between (a / A) (x / N) ((a + x) / (A + N)).
Proof.
  intros HA HN. unfold between.
  assert (E1 : (a + x) / (A + N) - a / A = N / (A + N) * (x / N - a / A)) by (field; lra).
  assert (E2 : x / N - (a + x) / (A + N) = A / (A + N) * (x / N - a / A)) by (field; lra).
  assert (P1 : 0 < N / (A + N)) by (apply Rdiv_lt_0_compat; lra). assert (P2 : 0 < A / (A + N)) by (apply Rdiv_lt_0_compat; lra).
  destruct (Rtotal_order (a / A) (x / N)) as [H|[H|H]].
  - left. assert (0 < x / N - a / A) by lra. split; [assert (0 < N / (A + N) * (x / N - a / A)) by now apply Rmult_lt_0_compat|
      assert (0 < A / (A + N) * (x / N - a / A)) by now apply Rmult_lt_0_compat]; lra.
  - right; right. rewrite H in E1, E2. replace (x / N - x / N) with 0 in E1, E2 by ring. rewrite Rmult_0_r in E1, E2. lra.
  - right; left. assert (0 < a / A - x / N) by lra. split; [assert (0 < A / (A + N) * (a / A - x / N)) by now apply Rmult_lt_0_compat|
      assert (0 < N / (A + N) * (a / A - x / N)) by now apply Rmult_lt_0_compat]; lra.
Qed.

Lemma dirichlet_compromise n (a : nd R) (x : list nat) i :
  nd_shape a = [S n] -> Forall (fun v => 0 < v) (flat (S n) a) -> length x = S n -> (0 < sumN x)%nat -> (i <= n)%nat ->
  exists out m0 m1, multinomial_dirichlet (CArr (as_array (map INR x))) (CArr a) = Ok (mkDirichlet (OVal (CArr out))) /\
    is_simplex_mean n i (dirichlet_pdf (flat (S n) a)) m0 /\ is_simplex_mean n i (dirichlet_pdf (flat (S n) out)) m1 /\
    between m0 (INR (nth i x 0%nat) / INR (sumN x)) m1.
Proof.
  intros Sh F L Hs Hi. destruct (multinomial_flat n a x Sh L) as (out & E & So & Eo).
  assert (La := flat_len (S n) a). set (al := flat (S n) a) in *.
  exists out, (nth i al 0 / sumR al), (nth i (update al x) 0 / sumR (update al x)).
  split; [exact E|]. split; [now apply dirichlet_mean_int|]. rewrite Eo. split.
  - apply dirichlet_mean_int; auto. rewrite update_len; lia. now apply update_pos.
  - rewrite update_nth, update_sum by lia. apply between_average. apply (dir_sum_pos n al La F). now apply lt_0_INR.
Qed.

(** the law of large numbers carries over *)
Lemma dirichlet_consistent n (a : nd R) (X : nat -> list nat) (M V : nat -> R) (out : nat -> nd R) i (l : R) :
  nd_shape a = [S n] -> Forall (fun v => 0 < v) (flat (S n) a) -> (i <= n)%nat ->
  (forall N, length (X N) = S n /\ sumN (X N) = N) ->
  (forall N, multinomial_dirichlet (CArr (as_array (map INR (X N)))) (CArr a) = Ok (mkDirichlet (OVal (CArr (out N))))) ->
  (forall N, is_simplex_mean n i (dirichlet_pdf (flat (S n) (out N))) (M N)) ->
  (forall N, is_simplex_variance n i (dirichlet_pdf (flat (S n) (out N))) (V N)) ->
  is_lim_seq (fun N => INR (nth i (X N) 0%nat) / INR N) l -> is_lim_seq M l /\ is_lim_seq V 0.
Proof.
  intros Sh F Hi HX HO HM HV Hl.
  assert (La := flat_len (S n) a). set (al := flat (S n) a) in *. pose proof (dir_sum_pos n al La F) as HA.
  assert (EO : forall N, flat (S n) (out N) = update al (X N)).
  { intros N. destruct (multinomial_flat n a (X N) Sh (proj1 (HX N))) as (o & E & So & Eo). rewrite HO in E. injection E as ->. exact Eo. }
  assert (LU : forall N, length (update al (X N)) = S n) by (intros N; rewrite update_len; destruct (HX N); lia).
  assert (FU : forall N, Forall (fun v => 0 < v) (update al (X N))) by (intros N; now apply update_pos).
  assert (EM : forall N, (nth i al 0 + INR (nth i (X N) 0%nat)) / (sumR al + INR N) = M N).
  { intros N. specialize (HM N). rewrite EO in HM. apply (simplex_mean_unique n i _ _ _ (dirichlet_mean_int n _ (LU N) (FU N) i Hi)) in HM.
    rewrite <- HM. rewrite update_nth, update_sum by (destruct (HX N); lia). now rewrite (proj2 (HX N)). }
  assert (EV : forall N, V N = M N * (1 - M N) * / (sumR al + INR N + 1)).
  { intros N. specialize (HV N). rewrite EO in HV.
    apply (simplex_variance_unique n i _ _ _ (dirichlet_variance n _ i (LU N) (FU N) Hi)) in HV.
    rewrite <- HV, <- EM. rewrite update_nth, update_sum by (destruct (HX N); lia). rewrite (proj2 (HX N)).
    pose proof (pos_INR N). field. lra. }
  assert (LM : is_lim_seq M l).
  { apply is_lim_seq_ext with (1 := EM). now apply average_lim. }
  split; [exact LM|]. apply is_lim_seq_ext with (1 := fun N => eq_sym (EV N)).
  replace (Finite 0) with (Rbar_mult (l * (1 - l)) 0) by (simpl; f_equal; ring).
  apply is_lim_seq_mult'.
  - apply is_lim_seq_mult'; [exact LM|]. apply is_lim_seq_minus'; [apply is_lim_seq_const|exact LM].
  - replace (Finite 0) with (Rbar_inv p_infty) by reflexivity. apply is_lim_seq_inv; [|discriminate].
    apply is_lim_seq_le_p_loc with INR; [|exact is_lim_seq_INR]. exists 0%nat. intros N _. lra.
Qed.

(** ** averages of posterior means *)
Lemma mean_step n alpha x i : length alpha = S n -> Forall (fun a => 0 < a) alpha -> length x = S n -> (i <= n)%nat ->
  dirichlet_multinomial_pmf alpha (sumN x) x * (nth i (update alpha x) 0 / sumR (update alpha x)) =
  nth i alpha 0 / sumR alpha * dirichlet_multinomial_pmf (bump n i alpha) (sumN x) x.
Proof.
  intros L F Lx Hi.
  apply (simplex_uniq n 1 (fun p => nth i p 0 * (multinomial_pmf p x * dirichlet_pdf alpha p)) _ _ Rlt_0_1).
  - pose proof (dm_marginal n alpha x L Lx F) as D.
    assert (K : 0 < multinomial_coef x) by apply coef_pos.
    destruct (dirichlet_bayes n alpha x (multinomial_coef x) L Lx F K) as (ev & Hev & Iev & Hp).
    assert (ev = dirichlet_multinomial_pmf alpha (sumN x) x) as <-.
    { apply (simplex_uniq n 1 _ _ _ Rlt_0_1 Iev). revert D. apply simplex_ext; [lra|]. intros p _. unfold multinomial_pmf, cpow. ring. }
    pose proof (dirichlet_mean_int n (update alpha x) ltac:(rewrite update_len; lia) (update_pos alpha x F) i Hi) as M.
    apply (simplex_scal n 1 _ _ ev) in M. revert M. apply simplex_ext; [lra|]. intros p Hs. cbv beta. rewrite Hp by exact Hs.
    unfold multinomial_pmf. fold (cpow p x). field. lra.
  - pose proof (dm_marginal n (bump n i alpha) x (bump_len n i alpha L) Lx (bump_pos n i alpha F)) as D.
    apply (simplex_scal n 1 _ _ (nth i alpha 0 / sumR alpha)) in D. revert D. apply simplex_ext; [lra|]. intros p Hs. cbv beta.
    pose proof (dirichlet_shift n alpha L F i p Hi Hs) as S.
    transitivity (multinomial_pmf p x * (nth i alpha 0 / sumR alpha * dirichlet_pdf (bump n i alpha) p)); [ring|]. rewrite <- S. ring.
Qed.

Lemma flat_alphas n a : nd_shape a = [S n] -> alphas n (OVal (CArr a)) = flat (S n) a.
Proof.
  intros Sh. unfold alphas, flat. apply map_ext_in. intros i Hi. apply in_seq in Hi. symmetry. apply (at_index_flat a (S n)); [exact Sh|lia].
Qed.

Lemma multinomial_mean_calibrated (n N : nat) :
  simplex_mean_calibrated n (over_list (compositions (S n) N)) (fun d => dirichlet_pdf (alphas n (Dirichlet_alpha d)))
    (fun d x => with_alpha (multinomial_dirichlet (CArr (as_array (map INR x)))) d)
    (fun d x => let P := multinomial_dirichlet_predictive (Some (INR N)) d in
       Ok (dirichlet_multinomial_pmf (alphas n (DirichletMultinomial_alpha P)) (Rnat (DirichletMultinomial_n P)) x))
    (dirichlet_ok n) (fun x => length x = S n /\ sumN x = N).
Proof.
  intros [o] i (a & E & Sh & F) Hi. cbn [Dirichlet_alpha] in *. subst o. rewrite (flat_alphas n a Sh) in *.
  assert (La := flat_len (S n) a). set (al := flat (S n) a) in *.
  exists (nth i al 0 / sumR al), (fun x => nth i al 0 / sumR al * dirichlet_multinomial_pmf (bump n i al) N x).
  split; [now apply dirichlet_mean_int|]. split.
  - intros x (Lx & <-). destruct (multinomial_flat n a x Sh Lx) as (out & Eo & So & Ao).
    eexists _, (mkDirichlet (OVal (CArr out))), (nth i (update al x) 0 / sumR (update al x)).
    split; [reflexivity|]. split; [exact Eo|]. cbn [Dirichlet_alpha]. rewrite (flat_alphas n out So), Ao. split.
    + apply dirichlet_mean_int; auto. rewrite update_len; lia. now apply update_pos.
    + cbn [DirichletMultinomial_alpha DirichletMultinomial_n multinomial_dirichlet_predictive categorical_dirichlet_predictive Dirichlet_alpha].
      rewrite Rnat_INR. rewrite (flat_alphas n a Sh). symmetry. now apply mean_step.
  - pose proof (over_list_scal (compositions (S n) N) (dirichlet_multinomial_pmf (bump n i al) N) (nth i al 0 / sumR al) 1) as Q.
    rewrite Rmult_1_r in Q. apply Q. unfold over_list. pose proof (dm_total (bump n i al) N) as T. rewrite (bump_len n i al La) in T. apply T.
    + intros E. apply (f_equal (@length R)) in E. rewrite (bump_len n i al La) in E. discriminate.
    + now apply bump_pos.
Qed.

Lemma categorical_mean_calibrated (n : nat) :
  simplex_mean_calibrated n (up_to n) (fun d => dirichlet_pdf (alphas n (Dirichlet_alpha d)))
    (fun d k => with_alpha (categorical_dirichlet (CArr (as_array (map INR (counts n [k]))))) d)
    (fun d k => let P := categorical_dirichlet_predictive None d in
       Ok (dirichlet_multinomial_pmf (alphas n (DirichletMultinomial_alpha P)) (Rnat (DirichletMultinomial_n P)) (counts n [k])))
    (dirichlet_ok n) (fun k => (k <= n)%nat).
Proof.
  intros [o] i (a & E & Sh & F) Hi. cbn [Dirichlet_alpha] in *. subst o. rewrite (flat_alphas n a Sh) in *.
  assert (La := flat_len (S n) a). set (al := flat (S n) a) in *.
  exists (nth i al 0 / sumR al), (fun k => nth i al 0 / sumR al * dirichlet_multinomial_pmf (bump n i al) 1 (counts n [k])).
  split; [now apply dirichlet_mean_int|]. split.
  - intros k Hk. destruct (multinomial_flat n a (counts n [k]) Sh (counts_len n [k])) as (out & Eo & So & Ao).
    eexists _, (mkDirichlet (OVal (CArr out))), (nth i (update al (counts n [k])) 0 / sumR (update al (counts n [k]))).
    split; [reflexivity|]. split; [exact Eo|]. cbn [Dirichlet_alpha]. rewrite (flat_alphas n out So), Ao. split.
    + apply dirichlet_mean_int; auto. rewrite update_len; rewrite ?counts_len; lia. now apply update_pos.
    + cbn [DirichletMultinomial_alpha DirichletMultinomial_n categorical_dirichlet_predictive Dirichlet_alpha].
      change (nlit 1 : R) with (INR 1). rewrite Rnat_INR. rewrite (flat_alphas n a Sh). symmetry.
      pose proof (mean_step n al (counts n [k]) i La F (counts_len n [k]) Hi) as Q. rewrite counts_sum in Q by exact Hk. exact Q.
  - pose proof (up_to_scal n (fun k => dirichlet_multinomial_pmf (bump n i al) 1 (counts n [k])) (nth i al 0 / sumR al) 1) as Q.
    rewrite Rmult_1_r in Q. apply Q. unfold up_to. pose proof (bump_len n i al La) as Lb. pose proof (bump_pos n i al F) as Fb.
    pose proof (dir_sum_pos n _ Lb Fb) as Hb.
    rewrite (sum_eq _ (fun k => / sumR (bump n i al) * nth k (bump n i al) 0)).
    + rewrite <- sumR_sum_f, sumR_scal, <- Lb, map_seq_nth. field. lra.
    + intros k Hk. rewrite counts_one. rewrite (map_ext _ (fun j => if Nat.eqb k j then 1%nat else 0%nat)).
      * rewrite dm_one by auto. unfold Rdiv. ring.
      * intros j. destruct (Nat.eq_dec k j), (Nat.eqb_spec k j); congruence.
Qed.

(** ** VectorizedDist.rvs *)
Section Rvs.
Context {G : Type} (draw : nd R -> list nat -> G -> (list nat -> R) * G).

Lemma rvs_rows_ok s (f : nat -> nd R) : forall r m g, (forall k, (m <= k < m + r)%nat -> dirichlet_frozen (f k) = Ok (f k)) ->
  exists st : nat -> G, st m = g /\ (forall k, (m <= k < m + r)%nat -> st (S k) = snd (draw (f k) s (st k))) /\
    rvs_rows G draw s (map f (seq m r)) g =
    (Ok (map (fun k => mkNd (s ++ nd_shape (f k)) (fst (draw (f k) s (st k)))) (seq m r)), st (m + r)%nat).
Proof.
  induction r as [|r IH]; intros m g H.
  - exists (fun _ => g). rewrite Nat.add_0_r. split; [reflexivity|]. split; [intros k Hk; lia|reflexivity].
  - destruct (IH (S m) (snd (draw (f m) s g))) as (st & S0 & SS & E); [intros k Hk; apply H; lia|].
    exists (fun k => if Nat.leb k m then g else st k). rewrite Nat.leb_refl. split; [reflexivity|]. split.
    + intros k Hk. destruct (Nat.leb_spec (S k) m); [lia|]. destruct (Nat.leb_spec k m).
      * replace k with m in * by lia. exact S0.
      * apply SS. lia.
    + cbn [seq map rvs_rows]. rewrite H by lia. unfold dirichlet_rvs. destruct (draw (f m) s g) as [e g'] eqn:Ed. cbn [snd] in *.
      rewrite E. destruct (Nat.leb_spec (m + S r) m); [lia|]. rewrite Nat.leb_refl, Ed. cbn [fst rmap bind].
      replace (m + S r)%nat with (S m + r)%nat by lia. do 3 f_equal. apply map_ext_in. intros k Hk. apply in_seq in Hk.
      destruct (Nat.leb_spec k m); [lia|reflexivity].
Qed.

Lemma VectorizedDist_rvs_ok size r n (a : nd R) g : nd_shape a = [S r; S n] ->
  (forall k, (k <= r)%nat -> Forall (fun x => 0 < x) (row (S n) k a)) ->
  let s := match size with Some s => size_shape s | None => [1%nat] end in
  exists m (st : nat -> G), VectorizedDist_rvs G draw size a g = (Ok m, st (S r)) /\ nd_shape m = S r :: s ++ [S n] /\ st 0%nat = g /\
    forall k, (k <= r)%nat -> let d := draw (mkNd [S n] (fun i => nd_entry a (k :: i))) s (st k) in
      st (S k) = snd d /\ forall i, nd_entry m (k :: i) = fst d i.
Proof.
  intros Sh F s. set (f := fun k => mkNd [S n] (fun i => nd_entry a (k :: i))).
  destruct (rvs_rows_ok s f (S r) 0 g) as (st & S0 & SS & E).
  { intros k Hk. apply (frozen_ok n); [reflexivity|]. unfold f. rewrite (flat_row a (S r) (S n) k Sh) by lia. apply F. lia. }
  destruct (stack_ok (fun k => mkNd (s ++ [S n]) (fst (draw (f k) s (st k)))) (S r) (s ++ [S n])) as (m & Em & Sm & Hm); [lia|reflexivity|].
  exists m, st. split; [|split; [exact Sm|split; [exact S0|]]].
  - unfold VectorizedDist_rvs. fold s. rewrite (rows_of a (S r) (S n) Sh). fold f. change (0 + S r)%nat with (S r) in E.
    rewrite E. cbn [bind]. change (nd_shape (f _)) with [S n]. rewrite Em. reflexivity.
  - intros k Hk d. split; [apply SS; lia|]. intros i. rewrite Hm by lia. reflexivity.
Qed.

Lemma rvs_rows_inv s l : forall g xs g', rvs_rows G draw s l g = (Ok xs, g') -> Forall (fun p => exists b, dirichlet_frozen p = Ok b) l /\ length xs = length l.
Proof.
  induction l as [|p l IH]; intros g xs g' E; simpl in E.
  - injection E as <- _. split; [constructor|reflexivity].
  - destruct (dirichlet_frozen p) as [b|] eqn:Ef; [|discriminate]. destruct (dirichlet_rvs G draw s b g) as [x g1] eqn:Ed.
    destruct (rvs_rows G draw s l g1) as [[ys|] g2] eqn:Er; [|discriminate]. injection E as <- _.
    destruct (IH _ _ _ Er) as (F & Ll). split; [constructor; eauto|]. simpl. now rewrite Ll.
Qed.

Lemma VectorizedDist_rvs_iff size (a : nd R) g :
  (exists m, fst (VectorizedDist_rvs G draw size a g) = Ok m) <->
  exists r n, nd_shape a = [S r; S n] /\ forall k, (k <= r)%nat -> Forall (fun x => 0 < x) (row (S n) k a).
Proof.
  split.
  - intros (m & E). unfold VectorizedDist_rvs in E. destruct (nd_shape a) as [|r s] eqn:Sh.
    { unfold rows, elements in E. rewrite Sh in E. discriminate. }
    unfold rows, elements in E. rewrite Sh in E.
    destruct (rvs_rows _ _ _ _ g) as [[xs|] g'] eqn:Er; cbn [fst bind] in E; [|discriminate].
    apply rvs_rows_inv in Er as (Fr & Lr). destruct r as [|r].
    { destruct xs; [discriminate|discriminate]. }
    rewrite Forall_forall in Fr.
    assert (Q : forall k, (k <= r)%nat -> exists n, s = [S n] /\ Forall (fun x => 0 < x) (flat (S n) (mkNd s (fun i => nd_entry a (k :: i))))).
    { intros k Hk. destruct (Fr (mkNd s (fun i => nd_entry a (k :: i)))) as (b & Hb).
      - apply in_map_iff. exists k. split; [reflexivity|]. apply in_seq. lia.
      - apply frozen_only in Hb as (_ & n & Sn & F). exists n. split; [exact Sn|exact F]. }
    destruct (Q 0%nat ltac:(lia)) as (n & -> & _). exists r, n. split; [reflexivity|].
    intros k Hk. destruct (Q k Hk) as (n' & Sn & F). injection Sn as <-. rewrite (flat_row a (S r) (S n) k Sh) in F by lia. exact F.
  - intros (r & n & Sh & F). destruct (VectorizedDist_rvs_ok size r n a g Sh F) as (m & st & E & _). exists m. now rewrite E.
Qed.
End Rvs.

(** ** each count vector is listed once *)
Lemma NoDup_append {A} (l m : list A) : NoDup l -> NoDup m -> (forall x, In x l -> ~ In x m) -> NoDup (l ++ m).
Proof.
  intros Hl Hm D. induction Hl as [|x l Hx Hl IH]; [exact Hm|]. cbn [app]. constructor.
  - intros I. apply in_app_or in I. destruct I as [I|I]; [contradiction|]. apply (D x); [now left|exact I].
  - apply IH. intros y Hy. apply D. now right.
Qed.
Lemma NoDup_cons_map (l : list nat) (f : nat -> list (list nat)) :
  NoDup l -> (forall k, NoDup (f k)) -> NoDup (flat_map (fun k => map (cons k) (f k)) l).
Proof.
  intros H F. induction H as [|k l Hk Hl IH]; cbn [flat_map]; [constructor|]. apply NoDup_append.
  - apply FinFun.Injective_map_NoDup; [intros x y E; now inversion E|apply F].
  - exact IH.
  - intros x Hx I. apply in_map_iff in Hx as (y & <- & _). apply in_flat_map in I as (k' & Hk' & I).
    apply in_map_iff in I as (z & E & _). inversion E. subst. contradiction.
Qed.
Lemma compositions_NoDup m : forall n, NoDup (compositions m n).
Proof.
  induction m as [|m IH]; intros n; cbn [compositions].
  - destruct n; [constructor; [intros []|constructor]|constructor].
  - apply NoDup_cons_map; [apply seq_NoDup|]. intros k. apply IH.
Qed.

(** ** mean counts *)
Lemma sumR_map_lin {A} (l : list A) (f g : A -> R) a b :
  sumR (map (fun x => a * f x + b * g x) l) = a * sumR (map f l) + b * sumR (map g l).
Proof. unfold sumR. induction l as [|x l IH]; cbn [map fold_right]; [ring|]. rewrite IH. ring. Qed.
Lemma dm_mean n alpha N i : length alpha = S n -> Forall (fun a => 0 < a) alpha -> (i <= n)%nat ->
  sumR (map (fun x => INR (nth i x 0%nat) * dirichlet_multinomial_pmf alpha N x) (compositions (S n) N)) =
  INR N * (nth i alpha 0 / sumR alpha).
Proof.
  intros L F Hi. assert (HA : 0 < sumR alpha) by (apply sumR_pos; [exact F|intros E; subst; discriminate]). pose proof (pos_INR N) as HN.
  set (f := fun x => INR (nth i x 0%nat) * dirichlet_multinomial_pmf alpha N x).
  assert (Ne : forall l : list R, length l = S n -> l <> []) by (intros l E ->; discriminate).
  pose proof (dm_total alpha N (Ne _ L) F) as T. rewrite L in T.
  pose proof (dm_total (bump n i alpha) N (Ne _ (bump_len n i alpha L)) (bump_pos n i alpha F)) as T'. rewrite (bump_len n i alpha L) in T'.
  pose proof (sumR_map_lin (compositions (S n) N) f (dirichlet_multinomial_pmf alpha N) (/ (sumR alpha + INR N)) (nth i alpha 0 / (sumR alpha + INR N))) as E.
  pose proof (sumR_map_lin (compositions (S n) N) (dirichlet_multinomial_pmf (bump n i alpha) N) (fun _ => 0) (nth i alpha 0 / sumR alpha) 0) as E'.
  rewrite T in E. rewrite T' in E'.
  rewrite (map_ext_in _ (fun x => nth i alpha 0 / sumR alpha * dirichlet_multinomial_pmf (bump n i alpha) N x + 0 * 0)) in E.
  - rewrite E' in E. apply (Rmult_eq_reg_l (/ (sumR alpha + INR N))); [|apply Rinv_neq_0_compat; lra].
    transitivity (nth i alpha 0 / sumR alpha * 1 - nth i alpha 0 / (sumR alpha + INR N) * 1); [unfold f in *; lra|]. field. lra.
  - intros x Hx. apply compositions_in in Hx as (Lx & <-). rewrite Rmult_0_l, Rplus_0_r, <- mean_step by assumption.
    rewrite update_nth, update_sum by lia. unfold f. field. lra.
Qed.
Lemma predictive_mean (n N i : nat) (d : Dirichlet R) : dirichlet_ok n d -> (i <= n)%nat ->
  let P := multinomial_dirichlet_predictive (Some (INR N)) d in
  exists m, is_simplex_mean n i (dirichlet_pdf (alphas n (Dirichlet_alpha d))) m /\
  sumR (map (fun x => INR (nth i x 0%nat) * dirichlet_multinomial_pmf (alphas n (DirichletMultinomial_alpha P)) (Rnat (DirichletMultinomial_n P)) x)
         (compositions (S n) N)) = INR N * m.
Proof.
  destruct d as [o]. intros (a & E & Sh & F) Hi. cbn [Dirichlet_alpha] in *. subst o. rewrite (flat_alphas n a Sh) in *.
  assert (La := flat_len (S n) a). exists (nth i (flat (S n) a) 0 / sumR (flat (S n) a)). split; [now apply dirichlet_mean_int|].
  cbn [DirichletMultinomial_alpha DirichletMultinomial_n multinomial_dirichlet_predictive categorical_dirichlet_predictive Dirichlet_alpha].
  rewrite Rnat_INR, (flat_alphas n a Sh). now apply dm_mean.
Qed.
