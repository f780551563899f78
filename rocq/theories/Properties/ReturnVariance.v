(** C108: [return_variance] only adds the variance to what is returned. *)

From Coq Require Import ZArith Reals Lra String.
From Verif Require Import Model.Num Model.Py Model.Dists Model.NdArray Model.MatrixModel Model.Sampling.
From Verif Require Import Spec.ReturnVariance Proofs.ReturnVariance.
From Coq Require Import List.
Import ListNotations.
Open Scope string_scope.

Theorem C108_normal_inverse_gamma :
  forall (A : Type) (NA : Num A) (G : Type) entries advance from_seed (d : NormalInverseGamma (nd A) (nd A) (nd A)) k rs,
  let mean rv := NormalInverseGamma_sample_mean G entries advance from_seed d k rv rs in
  let beta rv := NormalInverseGamma_sample_beta G entries advance from_seed d k rv rs in
  let variance := NormalInverseGamma_sample_variance G entries advance from_seed d k rs in
  only_adds_variance mean variance /\ raises_with mean variance /\
  only_adds_variance beta variance /\ raises_with beta variance /\ forall rv w, mean rv w = beta rv w.
Proof. exact @nig_full. Qed.

Print Assumptions C108_normal_inverse_gamma.

Theorem C108_normal_gamma :
  forall (A : Type) (NA : Num A) (G : Type) entries advance from_seed (d : NormalGamma (nd A)) k rs,
  let mean rv := NormalGamma_sample_mean G entries advance from_seed d k rv rs in
  let beta rv := NormalGamma_sample_beta G entries advance from_seed d k rv rs in
  let variance := NormalGamma_sample_variance G entries advance from_seed d k rs in
  only_adds_variance mean variance /\ raises_with mean variance /\
  only_adds_variance beta variance /\ raises_with beta variance /\ forall rv w, mean rv w = beta rv w.
Proof. exact @ng_full. Qed.

(** a generator that counts; every draw gives the number of the state *)
Definition count_entries (q : request (nd R)) (g : nat) (i : list nat) : R := INR (S g).
Definition number (x : R) : nd R := scalar x.

Example C108_case :
  exists m v w', NormalGamma_sample_mean nat count_entries (fun _ => S) Z.to_nat (mkNormalGamma (number 1) (number 4) (number 2) (number 3)) 3 true
    RS_generator (mkWorld 0%nat 0%nat []) = (Ok (m, Some v), w') /\
  NormalGamma_sample_mean nat count_entries (fun _ => S) Z.to_nat (mkNormalGamma (number 1) (number 4) (number 2) (number 3)) 3 false
    RS_generator (mkWorld 0%nat 0%nat []) = (Ok (m, None), w') /\
  nd_shape m = [3%nat] /\ nd_shape v = [3%nat] /\ w_generator w' = 2%nat.
Proof. do 3 eexists. repeat split; reflexivity. Qed.

Print Assumptions C108_normal_gamma.

Theorem C108_normal_inverse_wishart :
  forall (A : Type) (NA : Num A) (G : Type) entries advance from_seed (d : NormalInverseWishart (nd A)) k rs,
  let mean rv := NormalInverseWishart_sample_mean G entries advance from_seed d k rv rs in
  let variance := NormalInverseWishart_sample_variance G entries advance from_seed d k rs in
  only_adds_variance mean variance /\ raises_with mean variance.
Proof. exact @niw_adds. Qed.

Print Assumptions C108_normal_inverse_wishart.

Theorem C108_normal_wishart :
  forall (A : Type) (NA : Num A) (G : Type) entries advance from_seed inv (d : NormalWishart (nd A)) k rs,
  let mean rv := NormalWishart_sample_mean G entries advance from_seed inv d k rv rs in
  let variance := NormalWishart_sample_variance G entries advance from_seed inv d k rs in
  only_adds_variance mean variance /\ raises_with mean variance.
Proof. exact @nw_adds. Qed.

(** an inverse that fails: both calls raise, having used up the one draw *)
Example C108_case_raises :
  let singular : nd R -> res (nd R) := fun _ => Raise LinAlgError in
  let eye := mkNd [2%nat; 2%nat] (fun i => match i with [r; c] => if Nat.eqb r c then 1%R else 0%R | _ => 0%R end) in
  let d := mkNormalWishart (mkNd [2%nat] (fun _ => 1%R)) (number 1) eye (number 3) in
  forall rv, exists w', NormalWishart_sample_mean nat count_entries (fun _ => S) Z.to_nat singular d 2 rv RS_generator (mkWorld 0%nat 0%nat []) = (Raise LinAlgError, w') /\
    w_generator w' = 1%nat.
Proof. intros. eexists. split; reflexivity. Qed.

Print Assumptions C108_normal_wishart.

(** C61, C108: what the samplers put together with np.stack: arrays of one shape make an array with one
    more axis, whose entries are theirs; anything else raises. *)
Theorem C108_stack :
  forall (A : Type) (l : list (nd A)),
  match l with
  | [] => stack l = Raise (ValueError "need at least one array to stack")
  | a :: _ =>
      (same_shapes l -> exists r, stack l = Ok r /\ nd_shape r = List.length l :: nd_shape a /\
         forall k i b, nth_error l k = Some b -> nd_entry r (k :: i) = nd_entry b i) /\
      (~ same_shapes l -> stack l = Raise (ValueError "all input arrays must have the same shape"))
  end.
Proof. exact @stack_cases. Qed.

Example C108_case_stack :
  same_shapes [mkNd [2%nat] (fun _ => 1%R); mkNd [2%nat] (fun _ => 5%R)] /\ ~ same_shapes [mkNd [2%nat] (fun _ => 1%R); mkNd [3%nat] (fun _ => 5%R)].
Proof.
  split.
  - intros a b [<-|[<-|[]]] [<-|[<-|[]]]; reflexivity.
  - intros H. specialize (H _ _ (or_introl eq_refl) (or_intror (or_introl eq_refl))). discriminate.
Qed.

Print Assumptions C108_stack.
