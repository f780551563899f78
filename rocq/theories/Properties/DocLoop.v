(** C98: updating batch by batch (docs/examples/bayesian-update.md). *)

From Coq Require Import ZArith String Reals Lra.
From Verif Require Import Model.Num Model.Py Model.Dists Model.Models Model.Table Model.Validate Model.ByName Model.DocLoop.
From Verif Require Import Spec.Interface Spec.DocLoop Proofs.DocLoop.
From Coq Require Import List.
Import ListNotations.
Open Scope string_scope.
Open Scope list_scope.

(** C98: the loop of the page, for every element-wise model: if the first prior is an
    instance of the class the model takes, no pass of the loop raises, whatever the number
    of batches; every posterior is an instance the next pass accepts, its attributes are
    those computed from the attributes before, and the label counts the data so far. *)
Theorem C98_loop :
  forall (A : Type) (NA : Num A) (U U' : Ufuncs A) (i : interface),
  In i interfaces -> i_parameter i = "prior" -> feeds i i ->
  forall (sizes : list nat) (datas : list (list A)) (kwl : list (kwargs (pyval A))) (prior : obj (pyval A)) (p : list A),
  length sizes = length kwl -> Forall2 (gives U U' i) datas kwl -> has_parameters i prior p ->
  exists posteriors objects, chain U' (i_fn i) datas p = Ok posteriors /\
    update_loop U (i_name i) 0 (combine sizes kwl) prior = Ok (combine (running sizes) objects) /\
    Forall2 (has_parameters i) objects posteriors /\ length objects = length datas.
Proof. exact @loop_chain0. Qed.

(** every posterior function is such a model (27 rows) *)
Example C98_case_rows : Forall (fun i => feeds i i) (filter (fun i => String.eqb (i_parameter i) "prior") interfaces) /\
  length (filter (fun i => String.eqb (i_parameter i) "prior") interfaces) = 27%nat.
Proof. split; [|reflexivity]. simpl. repeat (apply Forall_cons; [reflexivity|]). apply Forall_nil. Qed.
Example C98_case_gives : forall U : Ufuncs R,
  gives U U (posterior "poisson_gamma" F_poisson_gamma ["x_total"; "n"] cGamma ab) [5; 2]%R [("n", py_number 2%R); ("x_total", py_number 5%R)].
Proof.
  intros U. split; [reflexivity|]. split; [repeat (constructor; [simpl; intuition discriminate|]); constructor|]. split.
  - intros k a H. cbn in H. repeat match type of H with _ \/ _ => destruct H as [H|H] end; try contradiction; injection H as <- <-;
      (eexists; split; [|exists cfloat, []; reflexivity]); simpl; auto.
  - split; [exact I|]. intros k o H. cbn in H. left.
    repeat match type of H with _ \/ _ => destruct H as [H|H] end; try contradiction; injection H as <- _; simpl; auto.
Qed.

Print Assumptions C98_loop.

(** C98: the first program of the page: after any non-empty batches of real data the object
    plotted in pass [k] is a NormalInverseGamma with the parameters of all the data so far. *)
Theorem C98_normal :
  forall (U : Ufuncs R) (batches : list (list R)), Forall (fun b => b <> []) batches ->
  exists objects, update_normal U batches = Ok (combine (running (map (@length R) batches)) objects) /\
    length objects = length batches /\
    forall k o, nth_error objects k = Some o ->
    let data := concat (firstn (S k) batches) in
    let n := INR (length data) in
    let s := fold_right Rplus 0%R data in
    let s2 := fold_right Rplus 0%R (map (fun x => x ^ 2)%R data) in
    has_parameters (normal_row "normal" F_normal_nig ["x_total"; "x2_total"; "n"] cNormalInverseGamma cNormalGamma nig_attrs delta_none) o
      [s / (1 + n); 1 + n / 2; 1 + (s2 - s ^ 2 / (1 + n)) / 2; 1 + n]%R.
Proof. exact update_normal_spec. Qed.

Example C98_case_normal : Forall (fun b : list R => b <> []) [[3; 5]; [4]; [6; 1; 2]]%R /\ running [2; 1; 3]%nat = [2; 3; 6]%nat.
Proof. split; [repeat constructor; discriminate|reflexivity]. Qed.

Print Assumptions C98_normal.

(** C98: the second program: [x] successes in each batch of [n]. *)
Theorem C98_binomial :
  forall (U : Ufuncs R) (batches : list (nat * R)),
  exists objects, update_binomial U batches = Ok (combine (running (map fst batches)) objects) /\
    length objects = length batches /\
    forall k o, nth_error objects k = Some o ->
    let x := fold_right Rplus 0%R (map snd (firstn (S k) batches)) in
    let n := fold_right Rplus 0%R (map (fun b => INR (fst b)) (firstn (S k) batches)) in
    has_parameters (posterior "binomial_beta" F_binomial_beta ["n"; "x"] cBeta ab) o [1 + x; 1 + (n - x)]%R.
Proof. exact update_binomial_spec. Qed.

Example C98_case_binomial : running (map fst [(5, 4%R); (25, 20%R); (50, 36%R)])%nat = [5; 30; 80]%nat.
Proof. reflexivity. Qed.

Print Assumptions C98_binomial.
