(** C18, C19, C28 (Dirichlet), C59: Dirichlet models. *)

From Coq Require Import Reals Lra Lia String.
From Coquelicot Require Import Coquelicot.
From Verif Require Import Model.Num Model.Py Model.NdArray Model.DirichletModel.
From Verif Require Import Spec.Special Spec.Bayes Spec.Simplex Spec.Containers.
From Verif Require Import Proofs.Dirichlet Proofs.DirichletMore.
From Coq Require Import List.
Import ListNotations.
Open Scope R_scope.

(** C18: the posterior density is prior times likelihood over the evidence, on
    the whole simplex, for every dimension and every list of count vectors. *)
Theorem C18_multinomial_dirichlet :
  forall (n : nat) (prior x : container R) (alpha : list R) (data : list (list nat)),
  length alpha = S n -> Forall (fun a => 0 < a) alpha -> Forall (fun x => length x = S n) data ->
  holds prior alpha -> holds x (map INR (total n data)) -> ~ concatenates prior x ->
  exists out alpha', multinomial_dirichlet x prior = Ok (mkDirichlet (OVal out)) /\ holds out alpha' /\
    length alpha' = S n /\ Forall (fun a => 0 < a) alpha' /\
    simplex_posterior n (dirichlet_pdf alpha) (likelihood multinomial_pmf data) (dirichlet_pdf alpha').
Proof. exact multinomial_bayes. Qed.

(** ice cream: a list as prior, three customers' counts summed by numpy *)
Example C18_case :
  let alpha := [1; 1; 1] in let data := [[5; 2; 1]; [3; 1; 0]; [3; 2; 0]]%nat in
  length alpha = 3%nat /\ Forall (fun a => 0 < a) alpha /\ Forall (fun x => length x = 3%nat) data /\
  total 2 data = [11; 5; 1]%nat /\
  holds (CList alpha) alpha /\ holds (CArr (as_array (map INR (total 2 data)))) (map INR (total 2 data)) /\
  ~ concatenates (CList alpha) (CArr (as_array (map INR (total 2 data)))).
Proof.
  split; [reflexivity|]. split; [repeat constructor; lra|]. split; [repeat constructor|]. split; [reflexivity|].
  split; [reflexivity|]. split; [|intros H; exact H].
  split; [reflexivity|]. intros i d Hi. apply nth_indep. exact Hi.
Qed.

Print Assumptions C18_multinomial_dirichlet.

Theorem C18_categorical_dirichlet :
  forall (n : nat) (prior x : container R) (alpha : list R) (obs : list nat),
  length alpha = S n -> Forall (fun a => 0 < a) alpha -> Forall (fun k => (k <= n)%nat) obs ->
  holds prior alpha -> holds x (map INR (counts n obs)) -> ~ concatenates prior x ->
  exists out alpha', categorical_dirichlet x prior = Ok (mkDirichlet (OVal out)) /\ holds out alpha' /\
    length alpha' = S n /\ Forall (fun a => 0 < a) alpha' /\
    simplex_posterior n (dirichlet_pdf alpha) (likelihood categorical_pmf obs) (dirichlet_pdf alpha').
Proof. exact categorical_bayes. Qed.

Example C18_case2 : counts 2 [0; 2; 2; 1; 2]%nat = [1; 1; 3]%nat /\ Forall (fun k => (k <= 2)%nat) [0; 2; 2; 1; 2]%nat.
Proof. split; [reflexivity|repeat constructor]. Qed.

Print Assumptions C18_categorical_dirichlet.

(** C18: the density of the specification is a density. *)
Theorem C18_density_normalised :
  forall (n : nat) (alpha : list R), length alpha = S n -> Forall (fun a => 0 < a) alpha ->
  is_simplex_int n 1 (dirichlet_pdf alpha) 1.
Proof. exact dirichlet_total. Qed.

Print Assumptions C18_density_normalised.

(** C19: equal lengths and not two lists or two tuples: element-wise.  The
    result is an array iff one of the arguments is.  Partial: see the refutations. *)
Theorem C19_elementwise_partial :
  forall (A : Type) (NA : Num A) (prior x : container A) (alpha lx : list A),
  holds prior alpha -> holds x lx -> length alpha = length lx -> ~ concatenates prior x ->
  exists out, get_dirichlet_posterior_params prior x = Ok (OVal out) /\ holds out (zip_with nadd alpha lx) /\
    ((exists a, out = CArr a) <-> (exists a, prior = CArr a) \/ (exists a, x = CArr a)).
Proof. exact @params_elementwise. Qed.

Print Assumptions C19_elementwise_partial.

(** C19: a number is added to every entry of an array of any shape. *)
Theorem C19_number :
  forall (A : Type) (NA : Num A) (a : nd A) (x : A),
  exists r, get_dirichlet_posterior_params (CArr a) (CNum x) = Ok (OVal (CArr r)) /\
    nd_shape r = nd_shape a /\ forall i, at_index i r = nadd (at_index i a) x.
Proof. exact @params_number. Qed.

Print Assumptions C19_number.

(** C19 is false for two lists and for two tuples: they are concatenated. *)
Theorem C19_concatenates_refuted :
  forall (A : Type) (NA : Num A) (alpha lx : list A),
  get_dirichlet_posterior_params (CList alpha) (CList lx) = Ok (OVal (CList (alpha ++ lx))) /\
  get_dirichlet_posterior_params (CTuple alpha) (CTuple lx) = Ok (OVal (CTuple (alpha ++ lx))).
Proof. exact @params_concatenate. Qed.

Print Assumptions C19_concatenates_refuted.

(** C19 is false for different lengths (neither 1): the longer is cut silently. *)
Theorem C19_truncates_refuted :
  forall (A : Type) (NA : Num A) (prior x : container A) (alpha lx : list A),
  holds prior alpha -> holds x lx -> length alpha <> length lx -> length alpha <> 1%nat -> length lx <> 1%nat ->
  ~ concatenates prior x ->
  exists out, get_dirichlet_posterior_params prior x = Ok (OVal (CList out)) /\ out = zip_with nadd alpha lx /\
    length out = Nat.min (length alpha) (length lx).
Proof. exact @params_truncate. Qed.

Example C19_case :
  let prior := CArr (as_array [1; 1; 1]) in let x := CArr (as_array [4; 7]) in
  holds prior [1; 1; 1] /\ holds x [4; 7] /\
  get_dirichlet_posterior_params prior x = Ok (OVal (CList [1 + 4; 1 + 7])).
Proof.
  split; [|split].
  - split; [reflexivity|]. intros i d Hi. apply nth_indep. exact Hi.
  - split; [reflexivity|]. intros i d Hi. apply nth_indep. exact Hi.
  - reflexivity.
Qed.

Print Assumptions C19_truncates_refuted.

(** C19: the distribution object can be used only when alpha is an array. *)
Theorem C19_dist_needs_array :
  forall (A : Type) (d : Dirichlet A),
  (exists r, Dirichlet_dist d = Ok r) <-> (exists a, Dirichlet_alpha d = OVal (CArr a)).
Proof. exact @dist_needs_array. Qed.

Print Assumptions C19_dist_needs_array.

(** C28: updating an array prior twice is updating once with the summed counts. *)
Theorem C28_dirichlet :
  forall (A : Type) (NA : Num A) (a : nd A) (x y : container A) (la lx ly : list A),
  (forall u v w, nadd (nadd u v) w = nadd u (nadd v w)) ->
  holds (CArr a) la -> holds x lx -> holds y ly -> length la = length lx -> length la = length ly ->
  exists a1 a2, multinomial_dirichlet x (CArr a) = Ok (mkDirichlet (OVal (CArr a1))) /\
    multinomial_dirichlet y (CArr a1) = Ok (mkDirichlet (OVal (CArr a2))) /\
    forall z, holds z (zip_with nadd lx ly) -> exists a3, multinomial_dirichlet z (CArr a) = Ok (mkDirichlet (OVal (CArr a3))) /\
      nd_shape a2 = nd_shape a3 /\ forall i, (i < length la)%nat -> nd_entry a2 [i] = nd_entry a3 [i].
Proof. exact @dirichlet_sequential. Qed.

Print Assumptions C28_dirichlet.

(** C59: the predictive distribution is the multinomial averaged over the simplex. *)
Theorem C59_predictive_is_marginal :
  forall (n : nat) (d : Dirichlet R) (c : container R) (alpha : list R) (x : list nat),
  Dirichlet_alpha d = OVal c -> holds c alpha -> length alpha = S n -> length x = S n -> Forall (fun a => 0 < a) alpha ->
  let pred := multinomial_dirichlet_predictive (Some (INR (sumN x))) d in
  Dirichlet_alpha d = DirichletMultinomial_alpha pred /\ DirichletMultinomial_n pred = INR (sumN x) /\
  is_simplex_int n 1 (fun p => multinomial_pmf p x * dirichlet_pdf alpha p) (dirichlet_multinomial_pmf alpha (sumN x) x).
Proof. intros n d c alpha x E H L Lx F pred. split; [reflexivity|]. split; [reflexivity|]. exact (dm_marginal n alpha x L Lx F). Qed.

(** ... for one trial by default *)
Theorem C59_default_one_trial :
  forall (n : nat) (d : Dirichlet R) (alpha : list R) (k : nat), length alpha = S n -> (k <= n)%nat -> Forall (fun a => 0 < a) alpha ->
  DirichletMultinomial_n (categorical_dirichlet_predictive None d) = 1 /\
  dirichlet_multinomial_pmf alpha 1 (map (fun j => if Nat.eqb k j then 1%nat else 0%nat) (seq 0 (S n))) = nth k alpha 0 / sumR alpha.
Proof. intros n d alpha k L Hk F. split; [reflexivity|]. exact (dm_one n alpha k L Hk F). Qed.

Print Assumptions C59_default_one_trial.

(** C59: its masses over all count vectors with n trials, each counted once, add up to one. *)
Theorem C59_total_mass :
  forall (alpha : list R) (n : nat), alpha <> [] -> Forall (fun a => 0 < a) alpha ->
  (forall x, In x (compositions (length alpha) n) <-> length x = length alpha /\ sumN x = n) /\
  NoDup (compositions (length alpha) n) /\
  sumR (map (dirichlet_multinomial_pmf alpha n) (compositions (length alpha) n)) = 1.
Proof. intros alpha n N F. split. intros x. apply compositions_in. split. apply compositions_NoDup. now apply dm_total. Qed.

Example C59_case : compositions 2 2 = [[0; 2]; [1; 1]; [2; 0]]%nat /\ [1; 2] <> [] /\ Forall (fun a => 0 < a) [1; 2].
Proof. split; [reflexivity|]. split; [discriminate|]. repeat constructor; lra. Qed.

Print Assumptions C59_total_mass.

(** C38: Dirichlet.uninformative(n) has the constant density (n - 1)! on the simplex. *)
Theorem C38_Dirichlet_uninformative :
  forall n : nat, exists a alpha, Dirichlet_dist (Dirichlet_uninformative (S n)) = Ok (One a) /\
  holds (CArr a) alpha /\ length alpha = S n /\ Forall (fun a => 0 < a) alpha /\
  forall p, on_simplex n 1 p -> dirichlet_pdf alpha p = INR (fact n).
Proof. exact uninformative_uniform. Qed.

Example C38_case_simplex : on_simplex 2 1 [1 / 2; 1 / 3; 1 / 6].
Proof. split; [reflexivity|]. split; [repeat constructor; lra|]. unfold sumR. simpl. lra. Qed.

Print Assumptions C38_Dirichlet_uninformative.
