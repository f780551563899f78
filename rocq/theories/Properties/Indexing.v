(** C34, C35, C42: indexing distributions. *)

From Coq Require Import ZArith Reals Lra Lia String Sorted.
From Coquelicot Require Import Coquelicot.
From Verif Require Import Model.Num Model.Py Model.Dists Model.Table Model.NdArray Model.SliceModel Model.ScipyDist Model.MultiIndex.
From Verif Require Import Spec.Special Spec.Densities Spec.Defined Spec.Shapes Spec.Indexing Spec.Multivariate.
From Verif Require Import Proofs.Slice Proofs.MultiIndex.
From Coq Require Import List.
Import ListNotations.
Open Scope R_scope.

(** C34: an integer key (also counted from the end) takes the member it names,
    in every parameter; scalars and flags are kept. *)
Theorem C34_integer_key :
  forall (A : Type) (d : A) (m : nat) (k : Z) (i : nat) (params : list (string * param A)),
  names m k i -> Forall (fun p => vector_of m (snd p)) params ->
  Forall2 (fun p q => fst q = fst p /\ vector_of 1 (snd q) /\
                      (forall j, member d j (snd q) = member d i (snd p)) /\
                      (forall b, snd p = PFlag b -> snd q = PFlag b))
    params (dist_getitem d params (KInt k)).
Proof. exact @getitem_int. Qed.

Example C34_case :
  let params := [("alpha"%string, PArr (mkNd [3%nat] (fun i => INR (nth 0 i 0%nat)))); ("beta"%string, PList [7; 8; 9]); ("one_start"%string, PFlag true)] in
  names 3 (-1) 2 /\ Forall (fun p => vector_of 3 (snd p)) params /\
  map (fun p => member 0 0 (snd p)) (dist_getitem 0 params (KInt (-1))) = [Some 2; Some 9; None].
Proof.
  split; [|split].
  - unfold names. lia.
  - repeat (constructor; simpl; auto).
  - simpl. repeat f_equal; lra.
Qed.

Print Assumptions C34_integer_key.

(** C34: a list of positions, a boolean mask or a slice takes the members it
    selects, in order, in every parameter.  Partial: parameters that are Python
    lists are covered for slices only (see [C34_python_list_refuted]). *)
Theorem C34_many_partial :
  forall (A : Type) (d : A) (m : nat) (k : key) (l : list nat) (params : list (string * param A)),
  selects m k l -> Forall (fun p => vector_of m (snd p)) params ->
  (forall n v, In (n, PList v) params -> match k with KSlice _ _ _ => True | _ => False end) ->
  Forall2 (fun p q => fst q = fst p /\ vector_of (length l) (snd q) /\
                      (forall j, (j < length l)%nat -> member d j (snd q) = member d (nth j l 0%nat) (snd p)) /\
                      (forall b, snd p = PFlag b -> snd q = PFlag b))
    params (dist_getitem d params k).
Proof. exact @getitem_many. Qed.

Example C34_case2 :
  selects 4 (KList [3; -4]%Z) [3%nat; 0%nat] /\ selects 3 (KMask [true; false; true]) [0%nat; 2%nat] /\
  selects 5 (KSlice (Some (-2)%Z) None (-2)) [3%nat; 1%nat].
Proof.
  split; [|split].
  - constructor. repeat constructor; simpl; lia.
  - constructor; auto.
    + intros [|[|[|[|i]]]]; simpl; intuition discriminate.
    + repeat constructor.
  - apply sel_backward; [lia| |].
    + repeat constructor.
    + intros first i. unfold first. simpl. split.
      * intros [<-|[<-|[]]]; repeat split; simpl; try lia; reflexivity.
      * intros (H1 & H2 & H3). destruct i as [|[|[|[|i]]]]; simpl in *; try lia; auto; discriminate.
Qed.

Print Assumptions C34_many_partial.

(** C34 fails for parameters given as Python lists with a list key: list[list]
    raises TypeError, which is swallowed, and the whole list is kept. *)
Theorem C34_python_list_refuted :
  exists (params : list (string * param R)) (k : key) (l : list nat),
  selects 3 k l /\ Forall (fun p => vector_of 3 (snd p)) params /\
  dist_getitem 0 params k = params /\
  Forall (fun p => member 0 0 (snd p) <> member 0 (nth 0 l 0%nat) (snd p)) params.
Proof.
  exists [("alpha"%string, PList [7; 8; 9])], (KList [1%Z]), [1%nat].
  split; [|split; [|split]].
  - constructor. repeat constructor; lia.
  - repeat constructor.
  - reflexivity.
  - repeat constructor. simpl. intros E. injection E. lra.
Qed.

Print Assumptions C34_python_list_refuted.

(** C34 fails for a parameter of shape (1,) that broadcasts against the others:
    the slice [1:3] leaves it empty. *)
Theorem C34_length_one_refuted :
  exists (a b : nd R) (k : key) (l : list nat),
  selects 3 k l /\ fits (nd_shape a) [3%nat] /\ nd_shape b = [3%nat] /\ length l = 2%nat /\
  exists a' b', dist_getitem 0 [("alpha"%string, PArr a); ("beta"%string, PArr b)] k =
                  [("alpha"%string, PArr a'); ("beta"%string, PArr b')] /\
    nd_shape b' = [2%nat] /\ nd_shape a' = [0%nat] /\ ~ fits (nd_shape a') [2%nat].
Proof.
  exists (mkNd [1%nat] (fun _ => 5)), (mkNd [3%nat] (fun i => INR (nth 0 i 0%nat))), (KSlice (Some 1%Z) (Some 3%Z) 1), [1%nat; 2%nat].
  split; [|split; [|split; [reflexivity|split; [reflexivity|]]]].
  - apply sel_forward; [lia|repeat constructor|]. intros first i. unfold first. simpl. split.
    + intros [<-|[<-|[]]]; repeat split; simpl; try lia; reflexivity.
    + intros (H1 & H2 & _). destruct i as [|[|[|i]]]; simpl in *; try lia; auto.
  - repeat constructor.
  - do 2 eexists. split; [reflexivity|]. split; [reflexivity|]. split; [reflexivity|].
    simpl. intros H. inversion H; subst. intuition discriminate.
Qed.

Print Assumptions C34_length_one_refuted.

(** C34: slicing commutes with every element-wise function of the library. *)
Theorem C34_posterior_of_member :
  forall (A : Type) (NA : Num A) (U : Ufuncs A) (f : fn) (args : list (nd A)) (m : nat) (k : Z) (i : nat),
  length args = arity f -> Forall (scalar_or_vector m) args -> names m k i ->
  exists out out', run_nd U f args = Ok out /\ run_nd U f (map (nd_take (KInt k)) args) = Ok out' /\
  Forall2 (fun a b => nd_shape a = [] /\ nd_shape b = [] /\ nd_entry a [] = nd_entry b [])
          out' (map (nd_take (KInt k)) out).
Proof. exact @slice_commutes_int. Qed.

Print Assumptions C34_posterior_of_member.

Theorem C34_posterior_of_members :
  forall (A : Type) (NA : Num A) (U : Ufuncs A) (f : fn) (args : list (nd A)) (m : nat) (k : key) (l : list nat),
  length args = arity f -> Forall (scalar_or_vector m) args -> selects m k l ->
  exists out out', run_nd U f args = Ok out /\ run_nd U f (map (nd_take k) args) = Ok out' /\
  Forall2 (fun a b => nd_shape a = nd_shape b /\ scalar_or_vector (length l) b /\
                      forall j, (j < length l)%nat -> at_index [j] a = at_index [j] b)
          out' (map (nd_take k) out).
Proof. exact @slice_commutes_many. Qed.

Example C34_case3 :
  let n := mkNd [3%nat] (fun i => INR (10 + nth 0 i 0%nat)) in
  let x := mkNd [3%nat] (fun i => INR (nth 0 i 0%nat)) in
  Forall (scalar_or_vector 3) [n; x; scalar 1; scalar 1] /\ length [n; x; scalar 1; scalar 1] = arity F_binomial_beta /\
  selects 3 (KList [2; -3]%Z) [2%nat; 0%nat] /\ names 3 (-2) 1.
Proof.
  repeat split; try (unfold names; lia).
  - repeat (apply Forall_cons; [unfold scalar_or_vector; simpl; auto|]). apply Forall_nil.
  - constructor. repeat constructor; simpl; lia.
Qed.

Print Assumptions C34_posterior_of_members.

(** C35 is false: a key out of range is not reported.  What the code does: it
    returns the distribution unchanged. *)
Theorem C35_out_of_range_unchanged :
  forall (A : Type) (d : A) (m : nat) (k : Z) (params : list (string * param A)),
  (k < - Z.of_nat m \/ Z.of_nat m <= k)%Z -> Forall (fun p => vector_of m (snd p)) params ->
  dist_getitem d params (KInt k) = params /\
  (forall ks, In k ks -> (forall n v, ~ In (n, PList v) params) -> dist_getitem d params (KList ks) = params).
Proof. exact @getitem_out_of_range. Qed.

Print Assumptions C35_out_of_range_unchanged.

Theorem C35_out_of_range_refuted :
  exists (m : nat) (k : Z) (params : list (string * param R)),
  ~ (exists i, names m k i) /\ Forall (fun p => vector_of m (snd p)) params /\
  exists v, In v (dist_getitem 0 params (KInt k)) /\ vector_of m (snd v) /\ ~ vector_of 1 (snd v).
Proof.
  exists 2%nat, 5%Z, [("alpha"%string, PArr (mkNd [2%nat] (fun _ => 1))); ("beta"%string, PArr (mkNd [2%nat] (fun _ => 1)))].
  split; [|split].
  - intros (i & H). unfold names in H. lia.
  - repeat (apply Forall_cons; [simpl; auto|]). apply Forall_nil.
  - eexists. split; [left; reflexivity|]. simpl. split; auto. intuition discriminate.
Qed.

Print Assumptions C35_out_of_range_refuted.

(** C42: integer indexing of a bivariate normal gives the marginal density
    (the joint density integrated over the other coordinate). *)
Theorem C42_normal_marginal_density :
  forall (mu cov : nd R) (a b c : R),
  nd_shape mu = [2%nat] -> nd_shape cov = [2%nat; 2%nat] ->
  nd_entry cov [0%nat; 0%nat] = a -> nd_entry cov [0%nat; 1%nat] = b ->
  nd_entry cov [1%nat; 0%nat] = b -> nd_entry cov [1%nat; 1%nat] = c ->
  0 < a -> 0 < c -> 0 < det2 a b c ->
  let joint := normal2_pdf (nd_entry mu [0%nat]) (nd_entry mu [1%nat]) a b c in
  (forall k, k = 0%Z \/ k = (-2)%Z ->
     exists d, MultivariateNormal_getitem mu cov (PyInt k) = Ok (Univariate_normal d) /\ first_marginal joint (pdf (Normal_dist d))) /\
  (forall k, k = 1%Z \/ k = (-1)%Z ->
     exists d, MultivariateNormal_getitem mu cov (PyInt k) = Ok (Univariate_normal d) /\ second_marginal joint (pdf (Normal_dist d))).
Proof. exact normal_index_marginal. Qed.

Print Assumptions C42_normal_marginal_density.

(** C42: in any dimension, the coordinate of a normal vector. *)
Theorem C42_normal_coordinate :
  forall (mu cov : nd R) (n : nat) (k : Z) (i : nat) (t : nat -> R),
  nd_shape mu = [n] -> nd_shape cov = [n; n] -> names n k i -> 0 <= nd_entry cov [i; i] ->
  exists d, MultivariateNormal_getitem mu cov (PyInt k) = Ok (Univariate_normal d) /\
    normal_cgf 1 (fun _ => Normal_mu d) (fun _ _ => Normal_sigma d ^ 2) t =
    normal_cgf n (fun i => nd_entry mu [i]) (fun i j => nd_entry cov [i; j]) (weight_of [i] t).
Proof. exact normal_int_cgf. Qed.

Print Assumptions C42_normal_coordinate.

(** Nothing checks that the matrix is square or fits the mean: of a matrix of any shape the
    integer is read along each axis by itself. *)
Theorem C42_any_matrix :
  forall (mu m : nd R) (nu : R) (n d1 d2 : nat) (k : Z) (i r c : nat),
  nd_shape mu = [n] -> nd_shape m = [d1; d2] -> names n k i -> names d1 k r -> names d2 k c ->
  MultivariateNormal_getitem mu m (PyInt k) = Ok (Univariate_normal (mkNormal (nd_entry mu [i]) (sqrt (nd_entry m [r; c])))) /\
  MultivariateStudentT_getitem mu m nu (PyInt k) = Ok (Univariate_t (mkStudentT (nd_entry mu [i]) (nd_entry m [r; c]) nu)).
Proof. intros mu m nu n d1 d2 k i r c H H0 H1 H2 H3. exact (conj (normal_int_any mu m n d1 d2 k i r c H H0 H1 H2 H3) (t_int_any mu m nu n d1 d2 k i r c H H0 H1 H2 H3)). Qed.

(** the last entry of a 2 by 3 matrix *)
Example C42_any_matrix_case : names 2 (-1) 1 /\ names 3 (-1) 2.
Proof. unfold names. lia. Qed.

Print Assumptions C42_any_matrix.

(** The function compared is the logarithm of E exp(tX). *)
Theorem C42_cgf_meaning :
  forall (mu sigma t : R), 0 < sigma ->
  is_RInt_gen (fun x => exp (t * x) * pdf (Normal_dist (mkNormal mu sigma)) x) (Rbar_locally m_infty) (Rbar_locally p_infty)
    (exp (normal_cgf 1 (fun _ => mu) (fun _ _ => sigma ^ 2) (fun _ => t))).
Proof. exact normal_mgf. Qed.

Print Assumptions C42_cgf_meaning.

(** C42: a list, mask or slice selects sub-vector and sub-matrix, which is the
    distribution of the selected coordinates, for both distributions. *)
Theorem C42_subvector :
  forall (mu cov : nd R) (nu : R) (n : nat) (k : key) (l : list nat),
  nd_shape mu = [n] -> nd_shape cov = [n; n] -> selects n k l ->
  (exists m c, MultivariateNormal_getitem mu cov (Many k) = Ok (Multi_normal m c) /\
    nd_shape m = [length l] /\ nd_shape c = [length l; length l] /\
    forall t, normal_cgf (length l) (fun i => nd_entry m [i]) (fun i j => nd_entry c [i; j]) t =
              normal_cgf n (fun i => nd_entry mu [i]) (fun i j => nd_entry cov [i; j]) (weight_of l t)) /\
  (exists m c, MultivariateStudentT_getitem mu cov nu (Many k) = Ok (Multi_t m c nu) /\
    nd_shape m = [length l] /\ nd_shape c = [length l; length l] /\
    forall w t, t_cgf_given w (length l) (fun i => nd_entry m [i]) (fun i j => nd_entry c [i; j]) nu t =
                t_cgf_given w n (fun i => nd_entry mu [i]) (fun i j => nd_entry cov [i; j]) nu (weight_of l t)).
Proof. exact many_cgf. Qed.

Print Assumptions C42_subvector.

Theorem C42_entries :
  forall (A : Type) (NA : Num A) (mu cov : nd A) (nu : A) (n : nat) (k : key) (l : list nat),
  nd_shape mu = [n] -> nd_shape cov = [n; n] -> selects n k l ->
  exists m c, MultivariateStudentT_getitem mu cov nu (Many k) = Ok (Multi_t m c nu) /\
    MultivariateNormal_getitem mu cov (Many k) = Ok (Multi_normal m c) /\
    nd_shape m = [length l] /\ nd_shape c = [length l; length l] /\
    (forall i, nd_entry m [i] = nd_entry mu [nth i l 0%nat]) /\
    (forall i j, nd_entry c [i; j] = nd_entry cov [nth i l 0%nat; nth j l 0%nat]).
Proof. exact @both_many. Qed.

Print Assumptions C42_entries.

(** C42: indexing twice is indexing once. *)
Theorem C42_composes :
  forall (A : Type) (NA : Num A) (mu cov : nd A) (n : nat) (k : key) (l : list nat) (k' : key) (l' : list nat),
  nd_shape mu = [n] -> nd_shape cov = [n; n] -> selects n k l -> selects (length l) k' l' ->
  exists m c m' c', MultivariateNormal_getitem mu cov (Many k) = Ok (Multi_normal m c) /\
    MultivariateNormal_getitem m c (Many k') = Ok (Multi_normal m' c') /\
    nd_shape m' = [length l'] /\ nd_shape c' = [length l'; length l'] /\
    (forall i, nd_entry m' [i] = nd_entry mu [nth (nth i l' 0%nat) l 0%nat]) /\
    (forall i j, nd_entry c' [i; j] = nd_entry cov [nth (nth i l' 0%nat) l 0%nat; nth (nth j l' 0%nat) l 0%nat]).
Proof. exact @many_many. Qed.

Print Assumptions C42_composes.

Theorem C42_composes_integer :
  forall (A : Type) (NA : Num A) (mu cov : nd A) (n : nat) (k : key) (l : list nat) (k' : Z) (i : nat) (k'' : Z),
  nd_shape mu = [n] -> nd_shape cov = [n; n] ->
  selects n k l -> names (length l) k' i -> names n k'' (nth i l 0%nat) ->
  exists m c, MultivariateNormal_getitem mu cov (Many k) = Ok (Multi_normal m c) /\
    MultivariateNormal_getitem m c (PyInt k') = MultivariateNormal_getitem mu cov (PyInt k'').
Proof. exact @many_int. Qed.

Example C42_case :
  let mu := mkNd [2%nat] (fun i => INR (nth 0 i 0%nat)) in
  let cov := mkNd [2%nat; 2%nat] (fun i => match i with [0%nat; 0%nat] => 4 | [1%nat; 1%nat] => 9 | _ => 3 end) in
  nd_shape mu = [2%nat] /\ nd_shape cov = [2%nat; 2%nat] /\ 0 < det2 4 3 9 /\ names 2 (-1) 1 /\
  selects 2 (KList [1; 0]%Z) [1%nat; 0%nat] /\ names (length [1%nat; 0%nat]) 0 0.
Proof.
  repeat split; auto; unfold det2; try lra; try (simpl; lia).
  constructor. repeat constructor; simpl; lia.
Qed.

Print Assumptions C42_composes_integer.

(** C42: keys out of range raise; so does every numpy integer, in range or not,
    because isinstance(numpy.int64(0), int) is false. *)
Theorem C42_out_of_range :
  forall (A : Type) (NA : Num A) (mu cov : nd A) (nu : A) (n : nat) (k : Z),
  nd_shape mu = [n] -> nd_shape cov = [n; n] -> (k < - Z.of_nat n \/ Z.of_nat n <= k)%Z ->
  MultivariateNormal_getitem mu cov (PyInt k) = Raise IndexError /\
  MultivariateStudentT_getitem mu cov nu (PyInt k) = Raise IndexError.
Proof. exact @int_raises. Qed.

Print Assumptions C42_out_of_range.

Theorem C42_numpy_integer_refuted :
  forall (A : Type) (NA : Num A) (mu cov : nd A) (nu : A) (n : nat) (k : Z),
  nd_shape mu = [n] -> nd_shape cov = [n; n] ->
  MultivariateNormal_getitem mu cov (NpInt k) = Raise IndexError /\
  MultivariateStudentT_getitem mu cov nu (NpInt k) = Raise IndexError.
Proof. exact @npint_raises. Qed.

Print Assumptions C42_numpy_integer_refuted.

(** C42 is false for MultivariateStudentT[k]: the density returned is the
    marginal only when the diagonal entry is 1 (the scale should be its square root). *)
Theorem C42_t_coordinate_refuted :
  forall (mu sigma : nd R) (nu a b c : R),
  nd_shape mu = [2%nat] -> nd_shape sigma = [2%nat; 2%nat] ->
  nd_entry sigma [0%nat; 0%nat] = a -> nd_entry sigma [0%nat; 1%nat] = b ->
  nd_entry sigma [1%nat; 0%nat] = b -> nd_entry sigma [1%nat; 1%nat] = c ->
  0 < nu -> 0 < a -> 0 < det2 a b c ->
  let joint := t2_pdf (nd_entry mu [0%nat]) (nd_entry mu [1%nat]) a b c nu in
  exists d, MultivariateStudentT_getitem mu sigma nu (PyInt 0) = Ok (Univariate_t d) /\
    (first_marginal joint (pdf (StudentT_dist d)) <-> a = 1) /\
    first_marginal joint (pdf (StudentT_dist (mkStudentT (StudentT_mu d) (sqrt (StudentT_sigma d)) (StudentT_nu d)))).
Proof. exact t_index_marginal. Qed.

Print Assumptions C42_t_coordinate_refuted.
