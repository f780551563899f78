(** Moments of the Dirichlet distribution, and VectorizedDist. *)

From Coq Require Import Reals Lra Lia ZArith.
From Coquelicot Require Import Coquelicot.
From Verif Require Import Model.Num Model.Py Model.NdArray Model.DirichletModel Model.PlotModel Model.Sampling Model.VectorizedDist.
From Verif Require Import Spec.Special Spec.Densities Spec.Bayes Spec.Moments Spec.Simplex Spec.Containers Spec.Prequential Spec.Calibration
  Spec.SimplexMoments.
From Verif Require Import Analysis.Improper Analysis.GammaBeta Analysis.GammaFacts Proofs.Normalised Proofs.Pdfs Proofs.Dirichlet Proofs.Moments
  Proofs.Prequential Proofs.Calibration.
From Coq Require Import List.
Import ListNotations.
Open Scope R_scope.

Lemma simplex_plus n : forall s f g a b, 0 < s -> is_simplex_int n s f a -> is_simplex_int n s g b ->
  is_simplex_int n s (fun p => f p + g p) (a + b).
Proof.
  induction n as [|n IH]; intros s f g a b Hs; simpl.
  - intros -> ->. reflexivity.
  - intros (F & HF & IF) (G & HG & IG). exists (fun x => F x + G x). split.
    + intros x Hx. apply IH; [lra|auto|auto].
    + exact (is_RInt_gen_plus (V:=R_NormedModule) _ _ _ _ IF IG).
Qed.

(** *** one more observation of category k *)
Definition bump (n k : nat) (alpha : list R) : list R := update alpha (counts n [k]).

Lemma counts_len n obs : length (counts n obs) = S n.
Proof. unfold counts. now rewrite map_length, seq_length. Qed.
Lemma bump_len n k alpha : length alpha = S n -> length (bump n k alpha) = S n.
Proof. intros L. unfold bump. rewrite update_len; rewrite ?counts_len; auto. Qed.
Lemma bump_pos n k alpha : Forall (fun a => 0 < a) alpha -> Forall (fun a => 0 < a) (bump n k alpha).
Proof. apply update_pos. Qed.

Lemma update_nth alpha x i : length alpha = length x -> nth i (update alpha x) 0 = nth i alpha 0 + INR (nth i x 0%nat).
Proof.
  revert x i. induction alpha as [|a alpha IH]; intros [|k x] i L; try discriminate.
  - destruct i; simpl; ring.
  - injection L as L. destruct i; simpl; [reflexivity|]. apply (IH x i L).
Qed.
Lemma update_sum alpha x : length alpha = length x -> sumR (update alpha x) = sumR alpha + INR (sumN x).
Proof.
  revert x. induction alpha as [|a alpha IH]; intros [|k x] L; try discriminate.
  - simpl. ring.
  - injection L as L. unfold update, zip_with. cbn [combine map]. change (sumR (?u :: ?l)) with (u + sumR l).
    change (map (fun p => fst p + snd p) (combine alpha (map INR x))) with (update alpha x). rewrite IH by exact L.
    change (sumN (k :: x)) with (k + sumN x)%nat. rewrite plus_INR. cbn [sumR fold_right fst snd]. unfold sumR. ring.
Qed.
Lemma counts_nth n k i : (i <= n)%nat -> nth i (counts n [k]) 0%nat = if Nat.eq_dec k i then 1%nat else 0%nat.
Proof.
  intros Hi. rewrite counts_one. rewrite (nth_indep _ 0%nat (if Nat.eq_dec k 0 then 1%nat else 0%nat)) by (rewrite map_length, seq_length; lia).
  rewrite (map_nth (fun j => if Nat.eq_dec k j then 1%nat else 0%nat)). now rewrite seq_nth by lia.
Qed.
Lemma counts_sum n k : (k <= n)%nat -> sumN (counts n [k]) = 1%nat.
Proof. intros Hk. rewrite counts_one. apply sum_indicator. lia. Qed.
Lemma bump_nth n k alpha i : length alpha = S n -> (i <= n)%nat -> nth i (bump n k alpha) 0 = nth i alpha 0 + if Nat.eq_dec k i then 1 else 0.
Proof.
  intros L Hi. unfold bump. rewrite update_nth by now rewrite counts_len. rewrite counts_nth by exact Hi. destruct (Nat.eq_dec k i); reflexivity.
Qed.
Lemma bump_sum n k alpha : length alpha = S n -> (k <= n)%nat -> sumR (bump n k alpha) = sumR alpha + 1.
Proof. intros L Hk. unfold bump. rewrite update_sum by now rewrite counts_len. rewrite counts_sum by exact Hk. reflexivity. Qed.

Lemma cpow_single n k p : length p = S n -> (k <= n)%nat -> cpow p (counts n [k]) = nth k p 0.
Proof.
  intros Lp Hk. rewrite <- (lik_categorical n [k] p Lp (Forall_cons _ Hk (Forall_nil _))).
  unfold likelihood, categorical_pmf. simpl. ring.
Qed.

Section Dir.
Variables (n : nat) (alpha : list R).
Hypothesis (L : length alpha = S n) (F : Forall (fun a => 0 < a) alpha).

Lemma dir_sum_pos : 0 < sumR alpha.
Proof. apply sumR_pos; [exact F|]. intros E. rewrite E in L. discriminate. Qed.

Lemma dirichlet_mean_int k : (k <= n)%nat -> is_simplex_mean n k (dirichlet_pdf alpha) (nth k alpha 0 / sumR alpha).
Proof.
  intros Hk. unfold is_simplex_mean.
  pose proof (dm_marginal n alpha (counts n [k]) L (counts_len n [k]) F) as D. rewrite counts_sum in D by exact Hk.
  replace (dirichlet_multinomial_pmf alpha 1 (counts n [k])) with (nth k alpha 0 / sumR alpha) in D.
  - revert D. apply simplex_ext; [lra|]. intros p (Lp & _). f_equal.
    unfold multinomial_pmf. fold (cpow p (counts n [k])). rewrite (cpow_single n k p Lp Hk).
    unfold multinomial_coef. rewrite counts_sum by exact Hk. rewrite counts_one, coef_indicator. simpl. field.
  - rewrite counts_one. rewrite (map_ext _ (fun j => if Nat.eqb k j then 1%nat else 0%nat)).
    + symmetry. now apply dm_one.
    + intros j. destruct (Nat.eq_dec k j), (Nat.eqb_spec k j); congruence.
Qed.

(** p_k times the density is a multiple of the density with one more observation of k *)
Lemma dirichlet_shift k p : (k <= n)%nat -> on_simplex n 1 p ->
  nth k p 0 * dirichlet_pdf alpha p = nth k alpha 0 / sumR alpha * dirichlet_pdf (bump n k alpha) p.
Proof.
  intros Hk Hp. destruct (dirichlet_bayes n alpha (counts n [k]) 1 L (counts_len n [k]) F Rlt_0_1) as (ev & Hev & Iev & Hpost).
  assert (ev = nth k alpha 0 / sumR alpha) as <-.
  { apply (simplex_uniq n 1 (fun p => nth k p 0 * dirichlet_pdf alpha p)); [lra| |now apply dirichlet_mean_int].
    revert Iev. apply simplex_ext; [lra|]. intros q (Lq & _). rewrite (cpow_single n k q Lq Hk). ring. }
  fold (bump n k alpha) in Hpost. rewrite Hpost by exact Hp. destruct Hp as (Lp & _). rewrite (cpow_single n k p Lp Hk). field. lra.
Qed.
End Dir.

Lemma dirichlet_second n alpha k : length alpha = S n -> Forall (fun a => 0 < a) alpha -> (k <= n)%nat ->
  is_simplex_int n 1 (fun p => nth k p 0 ^ 2 * dirichlet_pdf alpha p)
    (nth k alpha 0 / sumR alpha * ((nth k alpha 0 + 1) / (sumR alpha + 1))).
Proof.
  intros L F Hk.
  pose proof (dirichlet_mean_int n (bump n k alpha) (bump_len n k alpha L) (bump_pos n k alpha F) k Hk) as M.
  rewrite bump_nth, bump_sum in M by assumption. destruct (Nat.eq_dec k k) as [_|]; [|congruence].
  apply (simplex_scal n 1 _ _ (nth k alpha 0 / sumR alpha)) in M. revert M. apply simplex_ext; [lra|].
  intros p Hp. cbv beta. pose proof (dirichlet_shift n alpha L F k p Hk Hp) as S.
  transitivity (nth k p 0 * (nth k p 0 * dirichlet_pdf alpha p)); [|ring]. rewrite S. ring.
Qed.

Lemma dirichlet_variance n alpha k : length alpha = S n -> Forall (fun a => 0 < a) alpha -> (k <= n)%nat ->
  let a := nth k alpha 0 in let A := sumR alpha in
  is_simplex_variance n k (dirichlet_pdf alpha) (a * (A - a) / (A ^ 2 * (A + 1))).
Proof.
  intros L F Hk a A. pose proof (dir_sum_pos n alpha L F) as HA. fold A in HA.
  exists (a / A). split; [now apply dirichlet_mean_int|].
  pose proof (dirichlet_second n alpha k L F Hk) as S2. fold a A in S2.
  pose proof (dirichlet_mean_int n alpha L F k Hk) as S1. unfold is_simplex_mean in S1. fold a A in S1.
  pose proof (dirichlet_total n alpha L F) as S0.
  apply (simplex_scal n 1 _ _ (- 2 * (a / A))) in S1. apply (simplex_scal n 1 _ _ ((a / A) ^ 2)) in S0.
  pose proof (simplex_plus n 1 _ _ _ _ Rlt_0_1 (simplex_plus n 1 _ _ _ _ Rlt_0_1 S2 S1) S0) as S.
  match type of S with is_simplex_int _ _ _ ?v => replace v with (a * (A - a) / (A ^ 2 * (A + 1))) in S by (field; lra) end.
  revert S. apply simplex_ext; [lra|]. intros p _. cbv beta. ring.
Qed.

(** ** the code *)
Lemma at_index_flat (a : nd R) K i : nd_shape a = [K] -> (i < K)%nat -> at_index [i] a = nd_entry a [i].
Proof.
  intros Sh Hi. unfold at_index. rewrite Sh. simpl. destruct (Nat.eqb_spec K 1); [|reflexivity]. subst. now replace i with 0%nat by lia.
Qed.
Lemma at_index_row (a : nd R) r K k i : nd_shape a = [r; K] -> (k < r)%nat -> (i < K)%nat -> at_index [k; i] a = nd_entry a [k; i].
Proof.
  intros Sh Hk Hi. unfold at_index. rewrite Sh. simpl. destruct (Nat.eqb_spec K 1), (Nat.eqb_spec r 1); simpl; subst;
  try (replace i with 0%nat by lia); try (replace k with 0%nat by lia); reflexivity.
Qed.

Lemma indices_flat K : indices [K] = map (fun i => [i]) (seq 0 K).
Proof. simpl. induction (seq 0 K); simpl; [reflexivity|]. now rewrite IHl. Qed.

Lemma flat_entries K a : nd_shape a = [K] -> map (nd_entry a) (indices (nd_shape a)) = flat K a.
Proof.
  intros Sh. rewrite Sh, indices_flat, map_map. unfold flat. apply map_ext_in. intros i Hi. apply in_seq in Hi.
  symmetry. apply (at_index_flat a K i Sh). lia.
Qed.
Lemma flat_len K a : length (flat K a) = K.
Proof. unfold flat. now rewrite map_length, seq_length. Qed.
Lemma flat_nth K a i d : (i < K)%nat -> nth i (flat K a) d = at_index [i] a.
Proof.
  intros Hi. rewrite (nth_indep _ d (at_index [0%nat] a)) by now rewrite flat_len. unfold flat.
  rewrite (map_nth (fun i => at_index [i] a)). now rewrite seq_nth.
Qed.

Lemma frozen_ok (n : nat) a : nd_shape a = [S n] -> Forall (fun x => 0 < x) (flat (S n) a) -> dirichlet_frozen a = Ok a.
Proof.
  intros Sh F. unfold dirichlet_frozen. rewrite (flat_entries (S n) a Sh), Sh.
  destruct (flat (S n) a) as [|x l] eqn:E; [apply (f_equal (@length R)) in E; rewrite flat_len in E; discriminate|].
  rewrite <- E in *. clear x l E.
  destruct (existsb _ _) eqn:X; [|reflexivity]. apply existsb_exists in X as (x & Hx & Hd). rewrite Forall_forall in F. specialize (F x Hx).
  destruct (Rle_dec x 0); [lra|discriminate].
Qed.

Lemma frozen_only a b : dirichlet_frozen a = Ok b -> b = a /\ exists n, nd_shape a = [S n] /\ Forall (fun x => 0 < x) (flat (S n) a).
Proof.
  unfold dirichlet_frozen. destruct (map (nd_entry a) (indices (nd_shape a))) as [|x l] eqn:E; [discriminate|]. rewrite <- E.
  destruct (existsb _ _) eqn:X; [discriminate|]. destruct (nd_shape a) as [|K [|? ?]] eqn:Sh; try discriminate. simpl.
  intros H. injection H as <-. split; [reflexivity|].
  destruct K as [|n]; [discriminate|]. exists n. split; [reflexivity|].
  rewrite <- Sh, (flat_entries (S n) a Sh) in X. apply Forall_forall. intros y Hy.
  destruct (Rlt_dec 0 y) as [|N]; [assumption|]. exfalso.
  assert (T : existsb (fun x => if Rle_dec x 0 then true else false) (flat (S n) a) = true).
  { apply existsb_exists. exists y. split; [exact Hy|]. destruct (Rle_dec y 0); [reflexivity|lra]. }
  congruence.
Qed.

Lemma mean_entries n a : nd_shape a = [S (S n)] ->
  nd_shape (dirichlet_mean a) = [S (S n)] /\
  forall i, (i <= S n)%nat -> nd_entry (dirichlet_mean a) [i] = nth i (flat (S (S n)) a) 0 / sumR (flat (S (S n)) a).
Proof.
  intros Sh. unfold dirichlet_mean, squeeze_output, map1. cbn [nd_shape nd_entry]. rewrite Sh. split; [reflexivity|].
  intros i Hi. cbn [unsqueeze hd]. rewrite <- Sh, (flat_entries _ a Sh). rewrite flat_nth by lia.
  rewrite (at_index_flat a (S (S n)) i Sh) by lia. reflexivity.
Qed.

Lemma mean_entry_one a : nd_shape a = [1%nat] -> 0 < at_index [0%nat] a ->
  nd_shape (dirichlet_mean a) = [] /\ nd_entry (dirichlet_mean a) [] = 1.
Proof.
  intros Sh Hp. unfold dirichlet_mean, squeeze_output, map1. cbn [nd_shape nd_entry]. rewrite Sh. split; [reflexivity|].
  cbn [unsqueeze]. rewrite <- Sh, (flat_entries _ a Sh). rewrite (at_index_flat a 1 0 Sh) in Hp by lia.
  unfold flat. cbn [seq map fold_right]. rewrite (at_index_flat a 1 0 Sh) by lia. field. lra.
Qed.

(** C80 flat *)
Lemma Dirichlet_mean_flat n a : nd_shape a = [S (S n)] -> Forall (fun x => 0 < x) (flat (S (S n)) a) ->
  exists m, Dirichlet_mean (mkDirichlet (OVal (CArr a))) = Ok m /\ nd_shape m = [S (S n)] /\
    forall i, (i <= S n)%nat -> is_simplex_mean (S n) i (dirichlet_pdf (flat (S (S n)) a)) (at_index [i] m).
Proof.
  intros Sh F. exists (dirichlet_mean a). destruct (mean_entries n a Sh) as (Sm & E).
  unfold Dirichlet_mean, Dirichlet_dist. cbn [Dirichlet_alpha]. rewrite Sh. cbn [length Nat.eqb bind].
  rewrite (frozen_ok (S n) a Sh F). split; [reflexivity|]. split; [exact Sm|].
  intros i Hi. rewrite (at_index_flat _ _ i Sm) by lia. rewrite E by exact Hi. apply dirichlet_mean_int; auto. apply flat_len.
Qed.

Lemma rows_of a r K : nd_shape a = [r; K] -> rows a = Ok (map (fun k => mkNd [K] (fun i => nd_entry a (k :: i))) (seq 0 r)).
Proof. intros Sh. unfold rows, elements. now rewrite Sh. Qed.

Lemma flat_row a r K k : nd_shape a = [r; K] -> (k < r)%nat -> flat K (mkNd [K] (fun i => nd_entry a (k :: i))) = row K k a.
Proof.
  intros Sh Hk. unfold flat, row. apply map_ext_in. intros i Hi. apply in_seq in Hi.
  rewrite (at_index_row a r K k i Sh) by lia. rewrite (at_index_flat _ K i) by (auto; lia). reflexivity.
Qed.

Lemma sequence_Ok {A B} (f : A -> res B) (g : A -> B) l : (forall a, In a l -> f a = Ok (g a)) -> sequence (map f l) = Ok (map g l).
Proof. induction l; intros H; simpl; [reflexivity|]. rewrite H by (left; auto). simpl. rewrite IHl by (intros; apply H; right; auto). reflexivity. Qed.

Lemma stack_ok (f : nat -> nd R) r s : (0 < r)%nat -> (forall k, (k < r)%nat -> nd_shape (f k) = s) ->
  exists m, stack (map f (seq 0 r)) = Ok m /\ nd_shape m = r :: s /\ forall k i, (k < r)%nat -> nd_entry m (k :: i) = nd_entry (f k) i.
Proof.
  intros Hr H. destruct r as [|r]; [lia|]. cbn [seq map]. unfold stack.
  change (f 0%nat :: map f (seq 1 r)) with (map f (seq 0 (S r))).
  replace (forallb _ _) with true.
  - eexists. split; [reflexivity|]. cbn [nd_shape nd_entry]. rewrite map_length, seq_length, (H 0%nat) by lia. split; [reflexivity|].
    intros k i Hk. rewrite (map_nth f). now rewrite seq_nth.
  - symmetry. apply forallb_forall. intros x Hx. apply in_map_iff in Hx as (k & <- & Hk). apply in_seq in Hk.
    rewrite !H by lia. unfold shape_eqb. destruct (list_eq_dec Nat.eq_dec s s); congruence.
Qed.

(** C80 table *)
Lemma Dirichlet_mean_rows r n a : nd_shape a = [S r; S (S n)] -> (forall k, (k <= r)%nat -> Forall (fun x => 0 < x) (row (S (S n)) k a)) ->
  exists m, Dirichlet_mean (mkDirichlet (OVal (CArr a))) = Ok m /\ nd_shape m = [S r; S (S n)] /\
    forall k i, (k <= r)%nat -> (i <= S n)%nat -> is_simplex_mean (S n) i (dirichlet_pdf (row (S (S n)) k a)) (at_index [k; i] m).
Proof.
  intros Sh F. set (R0 := fun k => mkNd [S (S n)] (fun i => nd_entry a (k :: i))).
  destruct (stack_ok (fun k => dirichlet_mean (R0 k)) (S r) [S (S n)]) as (m & E & Sm & Em); [lia| |].
  { intros k Hk. now apply (mean_entries n). }
  exists m. split; [|split; [exact Sm|]].
  - unfold Dirichlet_mean, Dirichlet_dist. cbn [Dirichlet_alpha]. rewrite Sh. cbn [length Nat.eqb bind].
    unfold VectorizedDist_mean. rewrite (rows_of a (S r) (S (S n)) Sh). cbn [bind].
    rewrite (sequence_Ok _ dirichlet_mean).
    + cbn [bind]. rewrite map_map. exact E.
    + intros x Hx. apply in_map_iff in Hx as (k & <- & Hk). apply in_seq in Hk.
      rewrite (frozen_ok (S n)); [reflexivity|reflexivity|]. rewrite (flat_row a (S r) (S (S n)) k Sh) by lia. apply F. lia.
  - intros k i Hk Hi. rewrite (at_index_row m _ _ k i Sm) by lia. rewrite Em by lia.
    destruct (mean_entries n (R0 k) eq_refl) as (_ & Ei). rewrite Ei by exact Hi.
    unfold R0. rewrite (flat_row a (S r) (S (S n)) k Sh) by lia. apply dirichlet_mean_int; auto.
    unfold row. now rewrite map_length, seq_length.
Qed.

(** one category: the dimension is dropped *)
Lemma Dirichlet_mean_one_row r a : nd_shape a = [S r; 1%nat] -> (forall k, (k <= r)%nat -> 0 < at_index [k; 0%nat] a) ->
  exists m, Dirichlet_mean (mkDirichlet (OVal (CArr a))) = Ok m /\ nd_shape m = [S r] /\ forall k, (k <= r)%nat -> nd_entry m [k] = 1.
Proof.
  intros Sh F. set (R0 := fun k => mkNd [1%nat] (fun i => nd_entry a (k :: i))).
  assert (P : forall k, (k <= r)%nat -> flat 1 (R0 k) = [at_index [k; 0%nat] a]).
  { intros k Hk. unfold R0. rewrite (flat_row a (S r) 1 k Sh) by lia. reflexivity. }
  assert (P0 : forall k, (k <= r)%nat -> 0 < at_index [0%nat] (R0 k)).
  { intros k Hk. specialize (P k Hk). apply (f_equal (fun l => nth 0 l 0)) in P. rewrite flat_nth in P by lia. rewrite P. now apply F. }
  destruct (stack_ok (fun k => dirichlet_mean (R0 k)) (S r) []) as (m & E & Sm & Em); [lia| |].
  { intros k Hk. apply (mean_entry_one (R0 k)); [reflexivity|]. apply P0. lia. }
  exists m. split; [|split; [exact Sm|]].
  - unfold Dirichlet_mean, Dirichlet_dist. cbn [Dirichlet_alpha]. rewrite Sh. cbn [length Nat.eqb bind].
    unfold VectorizedDist_mean. rewrite (rows_of a (S r) 1 Sh). cbn [bind].
    rewrite (sequence_Ok _ dirichlet_mean).
    + cbn [bind]. rewrite map_map. exact E.
    + intros x Hx. apply in_map_iff in Hx as (k & <- & Hk). apply in_seq in Hk.
      rewrite (frozen_ok 0); [reflexivity|reflexivity|]. change (Forall (fun x => 0 < x) (flat 1 (R0 k))). rewrite P by lia.
      constructor; [apply F; lia|constructor].
  - intros k Hk. rewrite Em by lia. apply (mean_entry_one (R0 k)); [reflexivity|]. now apply P0.
Qed.

Lemma sequence_inv {A B} (f : A -> res B) l ms : sequence (map f l) = Ok ms -> forall a, In a l -> exists b, f a = Ok b.
Proof.
  revert ms. induction l as [|x l IH]; intros ms E a Ha; [destruct Ha|]. simpl in E.
  destruct (f x) as [b|] eqn:Eb; [|discriminate]. simpl in E. destruct (sequence (map f l)) eqn:El; [|discriminate].
  destruct Ha as [->|Ha]; [eauto|]. eapply IH; eauto.
Qed.

(** when there is a mean at all *)
Definition has_mean (a : nd R) : Prop :=
  match nd_shape a with
  | [K] => (0 < K)%nat /\ Forall (fun x => 0 < x) (flat K a)
  | [r; K] => (0 < r)%nat /\ (0 < K)%nat /\ forall k, (k < r)%nat -> Forall (fun x => 0 < x) (row K k a)
  | _ => False
  end.

Lemma Dirichlet_mean_iff d :
  (exists m, Dirichlet_mean d = Ok m) <-> exists a, Dirichlet_alpha d = OVal (CArr a) /\ has_mean a.
Proof.
  destruct d as [o]. cbn [Dirichlet_alpha]. split.
  - intros (m & E). destruct o as [[x|l|l|a]|l]; try discriminate. exists a. split; [reflexivity|].
    unfold Dirichlet_mean, Dirichlet_dist in E. cbn [Dirichlet_alpha] in E. unfold has_mean.
    destruct (nd_shape a) as [|r [|K s]] eqn:Sh; cbn [length Nat.eqb bind] in E.
    + unfold VectorizedDist_mean, rows, elements in E. rewrite Sh in E. discriminate.
    + destruct (dirichlet_frozen a) eqn:Ef; [|discriminate]. apply frozen_only in Ef as (_ & n & Sh' & F).
      rewrite Sh in Sh'. injection Sh' as ->. split; [lia|exact F].
    + unfold VectorizedDist_mean, rows, elements in E. rewrite Sh in E. cbn [bind] in E.
      destruct (sequence _) as [ms|] eqn:Es; [|discriminate].
      destruct r as [|r]; [injection Es as <-; discriminate|].
      pose proof (sequence_inv _ _ _ Es) as H.
      assert (Q : forall k, (k < S r)%nat -> exists n, K :: s = [S n] /\ Forall (fun x => 0 < x) (flat (S n) (mkNd (K :: s) (fun i => nd_entry a (k :: i))))).
      { intros k Hk. destruct (H (mkNd (K :: s) (fun i => nd_entry a (k :: i)))) as (b & Hb).
        - apply in_map_iff. exists k. split; [reflexivity|]. apply in_seq. lia.
        - destruct (dirichlet_frozen _) eqn:Ef in Hb; [|discriminate]. apply frozen_only in Ef as (_ & n & Sn & F). exists n. split; [exact Sn|exact F]. }
      destruct (Q 0%nat ltac:(lia)) as (n & Sn & _). injection Sn as -> ->.
      split; [lia|]. split; [lia|]. intros k Hk. destruct (Q k Hk) as (n' & Sn & F). injection Sn as <-.
      rewrite (flat_row a (S r) (S n) k Sh Hk) in F. exact F.
  - intros (a & -> & H). unfold has_mean in H. destruct (nd_shape a) as [|r [|K [|? ?]]] eqn:Sh; try contradiction.
    + destruct H as (Hr & F). destruct r as [|n]; [lia|].
      unfold Dirichlet_mean, Dirichlet_dist. cbn [Dirichlet_alpha]. rewrite Sh. cbn [length Nat.eqb bind].
      rewrite (frozen_ok n a Sh F). eexists. reflexivity.
    + destruct H as (Hr & HK & F). destruct r as [|r]; [lia|]. destruct K as [|[|n]]; [lia| |].
      * destruct (Dirichlet_mean_one_row r a Sh) as (m & E & _); [|eauto]. intros k Hk. specialize (F k ltac:(lia)).
        inversion F; assumption.
      * destruct (Dirichlet_mean_rows r n a Sh) as (m & E & _); [|eauto]. intros k Hk. apply F. lia.
Qed.
