(** Property C80: Dirichlet distributions as users of the library meet them: the
    mean and samples of [d.dist], tables with one distribution in every row, and
    how the mean moves from the prior to the data. *)

From Coq Require Import Reals Lra Lia String.
From Coquelicot Require Import Coquelicot.
From Verif Require Import Model.Num Model.Py Model.NdArray Model.DirichletModel Model.Sampling Model.VectorizedDist.
From Verif Require Import Spec.Densities Spec.Bayes Spec.Moments Spec.Simplex Spec.Prequential Spec.Calibration Spec.SimplexMoments.
From Verif Require Spec.Sampling.
From Verif Require Import Proofs.SimplexMoments Proofs.DirichletMore.
From Coq Require Import List.
Import ListNotations.
Open Scope R_scope.

(** C80: for a flat alpha of at least two numbers, dist.mean() is the mean by
    integration over the simplex, coordinate by coordinate. *)
Theorem C80_mean :
  forall (n : nat) (a : nd R), nd_shape a = [S (S n)] -> Forall (fun x => 0 < x) (flat (S (S n)) a) ->
  exists m, Dirichlet_mean (mkDirichlet (OVal (CArr a))) = Ok m /\ nd_shape m = [S (S n)] /\
    forall i, (i <= S n)%nat -> is_simplex_mean (S n) i (dirichlet_pdf (flat (S (S n)) a)) (at_index [i] m).
Proof. exact Dirichlet_mean_flat. Qed.

Example C80_case_flat :
  let a := as_array [1; 2; 3] in nd_shape a = [3%nat] /\ Forall (fun x => 0 < x) (flat 3 a) /\
  rmap (fun m => map (fun i => at_index [i] m) (seq 0 3)) (Dirichlet_mean (mkDirichlet (OVal (CArr a)))) = Ok [1 / 6; 2 / 6; 3 / 6].
Proof.
  split; [reflexivity|]. assert (F : Forall (fun x => 0 < x) (flat 3 (as_array [1; 2; 3]))) by (repeat constructor; simpl; lra).
  split; [exact F|]. unfold Dirichlet_mean, Dirichlet_dist. cbn [Dirichlet_alpha nd_shape as_array length Nat.eqb bind].
  change (mkNd [3%nat] _) with (as_array [1; 2; 3]). rewrite (frozen_ok 2 (as_array [1; 2; 3]) eq_refl F). cbn [rmap bind seq map].
  destruct (mean_entries 1 (as_array [1; 2; 3]) eq_refl) as (Sm & E).
  rewrite !(at_index_flat _ 3 _ Sm) by lia. rewrite !E by lia. do 2 f_equal; [|f_equal; [|f_equal]]; unfold flat, sumR; simpl; unfold at_index; simpl; field.
Qed.

Print Assumptions C80_mean.

(** C80: a table of alphas: row k of dist.mean() is the mean of row k. *)
Theorem C80_mean_rows :
  forall (r n : nat) (a : nd R), nd_shape a = [S r; S (S n)] ->
  (forall k, (k <= r)%nat -> Forall (fun x => 0 < x) (row (S (S n)) k a)) ->
  exists m, Dirichlet_mean (mkDirichlet (OVal (CArr a))) = Ok m /\ nd_shape m = [S r; S (S n)] /\
    forall k i, (k <= r)%nat -> (i <= S n)%nat -> is_simplex_mean (S n) i (dirichlet_pdf (row (S (S n)) k a)) (at_index [k; i] m).
Proof. exact Dirichlet_mean_rows. Qed.

Example C80_case_rows :
  let a := mkNd [2; 2]%nat (fun i => match i with [0; 0]%nat => 1 | [0; 1]%nat => 3 | [1; 0]%nat => 2 | _ => 5 end) in
  row 2 0 a = [1; 3] /\ row 2 1 a = [2; 5].
Proof. split; reflexivity. Qed.

Print Assumptions C80_mean_rows.

(** C80 is false for tables with a single category: the mean loses the dimension. *)
Theorem C80_one_category_refuted :
  forall (r : nat) (a : nd R), nd_shape a = [S r; 1%nat] -> (forall k, (k <= r)%nat -> 0 < at_index [k; 0%nat] a) ->
  exists m, Dirichlet_mean (mkDirichlet (OVal (CArr a))) = Ok m /\ nd_shape m = [S r] /\ nd_shape m <> nd_shape a /\
    forall k, (k <= r)%nat -> nd_entry m [k] = 1.
Proof.
  intros r a Sh F. destruct (Dirichlet_mean_one_row r a Sh F) as (m & E & Sm & H). exists m. split; [exact E|]. split; [exact Sm|].
  split; [rewrite Sm, Sh; discriminate|exact H].
Qed.

Example C80_case_one_category : let a := mkNd [3; 1]%nat (fun _ => 2) in nd_shape a = [3; 1]%nat /\ 0 < at_index [1; 0]%nat a.
Proof. split; [reflexivity|]. unfold at_index. simpl. lra. Qed.

Print Assumptions C80_one_category_refuted.

(** C80: there is a mean exactly for arrays with one or two dimensions, none of
    them empty, and only positive entries; anything else raises. *)
Theorem C80_mean_defined :
  forall (d : Dirichlet R),
  (exists m, Dirichlet_mean d = Ok m) <->
  exists a, Dirichlet_alpha d = OVal (CArr a) /\
    match nd_shape a with
    | [K] => (0 < K)%nat /\ Forall (fun x => 0 < x) (flat K a)
    | [r; K] => (0 < r)%nat /\ (0 < K)%nat /\ forall k, (k < r)%nat -> Forall (fun x => 0 < x) (row K k a)
    | _ => False
    end.
Proof. exact Dirichlet_mean_iff. Qed.

Example C80_case_defined :
  (exists e, Dirichlet_mean (mkDirichlet (OVal (CList [1; 1]))) = Raise e) /\
  (exists e, Dirichlet_mean (mkDirichlet (OVal (CArr (mkNd [0; 3]%nat (fun _ => 1))))) = Raise e).
Proof. split; eexists; reflexivity. Qed.

Print Assumptions C80_mean_defined.

(** C80: multinomial_dirichlet on tables (or a flat prior with a table of counts,
    or the other way round): row k is the posterior of row k's prior given row
    k's observations. *)
Theorem C80_rows :
  forall (r n : nat) (a x : nd R) (data : nat -> list (list nat)),
  broadcast_shapes (nd_shape a) (nd_shape x) = Some [r; S n] ->
  (forall k, (k < r)%nat -> Forall (fun v => 0 < v) (row (S n) k a)) ->
  (forall k, (k < r)%nat -> Forall (fun x => length x = S n) (data k)) ->
  (forall k, (k < r)%nat -> row (S n) k x = map INR (total n (data k))) ->
  exists out, multinomial_dirichlet (CArr x) (CArr a) = Ok (mkDirichlet (OVal (CArr out))) /\ nd_shape out = [r; S n] /\
    forall k, (k < r)%nat ->
      simplex_posterior n (dirichlet_pdf (row (S n) k a)) (likelihood multinomial_pmf (data k)) (dirichlet_pdf (row (S n) k out)).
Proof. exact rows_posterior. Qed.

(** a flat prior for two customers *)
Example C80_case_posterior :
  let a := as_array [1; 1] in
  let x := mkNd [2; 2]%nat (fun i => match i with [0; 0]%nat => 5 | [0; 1]%nat => 2 | [1; 0]%nat => 0 | _ => 1 end) in
  let data k := match k with O => [[4; 0]; [1; 2]]%nat | _ => [[0; 1]]%nat end in
  broadcast_shapes (nd_shape a) (nd_shape x) = Some [2; 2]%nat /\ row 2 0 a = [1; 1] /\ row 2 1 a = [1; 1] /\
  row 2 0 x = map INR (total 1 (data 0%nat)) /\ row 2 1 x = map INR (total 1 (data 1%nat)).
Proof.
  split; [reflexivity|]. split; [reflexivity|]. split; [reflexivity|].
  split; (apply (f_equal2 cons); [|apply (f_equal2 cons); [|reflexivity]]); unfold at_index; simpl; ring.
Qed.

Print Assumptions C80_rows.

(** C80: every coordinate of the posterior mean lies strictly between the prior
    mean and the observed fraction of that category (or all three are equal). *)
Theorem C80_compromise :
  forall (n : nat) (a : nd R) (x : list nat) (i : nat),
  nd_shape a = [S n] -> Forall (fun v => 0 < v) (flat (S n) a) -> length x = S n -> (0 < sumN x)%nat -> (i <= n)%nat ->
  exists out m0 m1, multinomial_dirichlet (CArr (as_array (map INR x))) (CArr a) = Ok (mkDirichlet (OVal (CArr out))) /\
    is_simplex_mean n i (dirichlet_pdf (flat (S n) a)) m0 /\ is_simplex_mean n i (dirichlet_pdf (flat (S n) out)) m1 /\
    between m0 (INR (nth i x 0%nat) / INR (sumN x)) m1.
Proof. exact dirichlet_compromise. Qed.

Example C80_case_compromise : between (1 / 2) (6 / 7) (7 / 9) /\ (0 < sumN [6; 1])%nat.
Proof. split; [unfold between; lra|simpl; lia]. Qed.

Print Assumptions C80_compromise.

(** C80: if the observed fraction of category i converges, the posterior mean of
    its probability converges to the same limit and the posterior variance to 0. *)
Theorem C80_consistent :
  forall (n : nat) (a : nd R) (X : nat -> list nat) (M V : nat -> R) (out : nat -> nd R) (i : nat) (l : R),
  nd_shape a = [S n] -> Forall (fun v => 0 < v) (flat (S n) a) -> (i <= n)%nat ->
  (forall N, length (X N) = S n /\ sumN (X N) = N) ->
  (forall N, multinomial_dirichlet (CArr (as_array (map INR (X N)))) (CArr a) = Ok (mkDirichlet (OVal (CArr (out N))))) ->
  (forall N, is_simplex_mean n i (dirichlet_pdf (flat (S n) (out N))) (M N)) ->
  (forall N, is_simplex_variance n i (dirichlet_pdf (flat (S n) (out N))) (V N)) ->
  is_lim_seq (fun N => INR (nth i (X N) 0%nat) / INR N) l -> is_lim_seq M l /\ is_lim_seq V 0.
Proof. exact dirichlet_consistent. Qed.

(** always the second of two categories *)
Example C80_case_consistent :
  let X N := [0; N]%nat in (forall N, length (X N) = 2%nat /\ sumN (X N) = N) /\ is_lim_seq (fun N => INR (nth 1 (X N) 0%nat) / INR N) 1.
Proof.
  split; [intros N; simpl; lia|]. apply is_lim_seq_ext_loc with (fun _ => 1); [|apply is_lim_seq_const].
  exists 1%nat. intros N HN. simpl nth. field. apply not_0_INR. lia.
Qed.

Print Assumptions C80_consistent.

(** C80: averaged over the counts that are predicted, the posterior mean is the prior mean. *)
Theorem C80_multinomial_mean_calibrated :
  forall (n N : nat),
  simplex_mean_calibrated n (over_list (compositions (S n) N)) (fun d => dirichlet_pdf (alphas n (Dirichlet_alpha d)))
    (fun d x => with_alpha (multinomial_dirichlet (CArr (as_array (map INR x)))) d)
    (fun d x => let P := multinomial_dirichlet_predictive (Some (INR N)) d in
       Ok (dirichlet_multinomial_pmf (alphas n (DirichletMultinomial_alpha P)) (Rnat (DirichletMultinomial_n P)) x))
    (dirichlet_ok n) (fun x => length x = S n /\ sumN x = N).
Proof. exact multinomial_mean_calibrated. Qed.

Print Assumptions C80_multinomial_mean_calibrated.

Theorem C80_categorical_mean_calibrated :
  forall (n : nat),
  simplex_mean_calibrated n (up_to n) (fun d => dirichlet_pdf (alphas n (Dirichlet_alpha d)))
    (fun d k => with_alpha (categorical_dirichlet (CArr (as_array (map INR (counts n [k]))))) d)
    (fun d k => let P := categorical_dirichlet_predictive None d in
       Ok (dirichlet_multinomial_pmf (alphas n (DirichletMultinomial_alpha P)) (Rnat (DirichletMultinomial_n P)) (counts n [k])))
    (dirichlet_ok n) (fun k => (k <= n)%nat).
Proof. exact categorical_mean_calibrated. Qed.

Example C80_case_calibrated : dirichlet_ok 2 (mkDirichlet (OVal (CArr (as_array [1; 2; 3])))).
Proof. eexists. split; [reflexivity|]. split; [reflexivity|]. repeat constructor; simpl; lra. Qed.

Print Assumptions C80_categorical_mean_calibrated.

(** C80: each category is predicted to be seen in proportion to its share of alpha. *)
Theorem C80_predictive_mean :
  forall (n N i : nat) (d : Dirichlet R), dirichlet_ok n d -> (i <= n)%nat ->
  let P := multinomial_dirichlet_predictive (Some (INR N)) d in
  exists m, is_simplex_mean n i (dirichlet_pdf (alphas n (Dirichlet_alpha d))) m /\
  sumR (map (fun x => INR (nth i x 0%nat) * dirichlet_multinomial_pmf (alphas n (DirichletMultinomial_alpha P)) (Rnat (DirichletMultinomial_n P)) x)
         (compositions (S n) N)) = INR N * m.
Proof. exact predictive_mean. Qed.

Print Assumptions C80_predictive_mean.

(** C80: samples from a table have the shape rows + size + categories (size
    defaults to 1).  Row k is drawn with row k's parameters from the state that
    row k - 1 left, so no random numbers are used twice. *)
Theorem C80_rvs :
  forall (G : Type) (draw : nd R -> list nat -> G -> (list nat -> R) * G) (size : option size_arg) (r n : nat) (a : nd R) (g : G),
  nd_shape a = [S r; S n] -> (forall k, (k <= r)%nat -> Forall (fun x => 0 < x) (row (S n) k a)) ->
  let s := match size with Some s => Spec.Sampling.size_shape s | None => [1%nat] end in
  exists m (st : nat -> G), VectorizedDist_rvs G draw size a g = (Ok m, st (S r)) /\ nd_shape m = S r :: s ++ [S n] /\ st 0%nat = g /\
    forall k, (k <= r)%nat -> let d := draw (mkNd [S n] (fun i => nd_entry a (k :: i))) s (st k) in
      st (S k) = snd d /\ forall i, nd_entry m (k :: i) = fst d i.
Proof. exact (@VectorizedDist_rvs_ok). Qed.

Print Assumptions C80_rvs.

(** C80: it raises exactly for other shapes, empty tables, and non-positive entries. *)
Theorem C80_rvs_defined :
  forall (G : Type) (draw : nd R -> list nat -> G -> (list nat -> R) * G) (size : option size_arg) (a : nd R) (g : G),
  (exists m, fst (VectorizedDist_rvs G draw size a g) = Ok m) <->
  exists r n, nd_shape a = [S r; S n] /\ forall k, (k <= r)%nat -> Forall (fun x => 0 < x) (row (S n) k a).
Proof. exact (@VectorizedDist_rvs_iff). Qed.

(** a generator counting its draws: two rows, two draws, each from its own state *)
Example C80_case_rvs :
  let draw (a : nd R) (s : list nat) (g : nat) := (fun i : list nat => INR g, S g) in
  let a := mkNd [2; 3]%nat (fun _ => 1) in
  (forall k, (k <= 1)%nat -> Forall (fun x => 0 < x) (row 3 k a)) /\ snd (VectorizedDist_rvs nat draw None a 0%nat) = 2%nat.
Proof.
  assert (F : forall k, (k <= 1)%nat -> Forall (fun x => 0 < x) (row 3 k (mkNd [2; 3]%nat (fun _ => 1)))).
  { intros k Hk. repeat constructor; unfold at_index; simpl; lra. }
  split; [exact F|].
  destruct (VectorizedDist_rvs_ok (fun (a : nd R) (s : list nat) (g : nat) => (fun i : list nat => INR g, S g)) None 1 2
    (mkNd [2; 3]%nat (fun _ => 1)) 0%nat eq_refl F) as (m & st & E & _ & S0 & H).
  cbv zeta. rewrite E. cbn [snd]. destruct (H 1%nat ltac:(lia)) as (S2 & _). destruct (H 0%nat ltac:(lia)) as (S1 & _).
  cbn [snd] in *. now rewrite S2, S1, S0.
Qed.

Print Assumptions C80_rvs_defined.
