(** C92: how many samples [dist.rvs] returns (docs/examples/sampling-distributions.md). *)

From Coq Require Import ZArith Reals Lia String.
From Verif Require Import Model.Num Model.Py Model.Dists Model.NdArray Model.Sampling.
From Verif Require Import Spec.Shapes Proofs.SamplingLaws Proofs.SampleSize.
From Coq Require Import List.
Import ListNotations.
Local Open Scope nat_scope.

(** C92: prepending the number of samples to the joint shape of the parameters always works. *)
Theorem C92_prepended :
  forall (params : list (list nat)) (u : list nat) (n : nat), joint params u -> rvs_shape params (Some (n :: u)) = Ok (n :: u).
Proof. exact prepended. Qed.

(** The page: mu of shape (3,), sigma of shape (2, 1) *)
Example C92_case : joint [[3]; [2; 1]] [2; 3].
Proof. pose proof (broadcast_all_joint [[3]; [2; 1]]) as J. exact J. Qed.
Print Assumptions C92_prepended.

(** C92: the number alone works exactly when, leading dimensions of size one apart, the
    parameters are numbers or vectors of just that length; otherwise scipy raises. *)
Theorem C92_plain_number :
  forall (params : list (list nat)) (u : list nat) (n : nat), joint params u ->
  ((exists k, u = repeat 1 k \/ u = repeat 1 k ++ [n]) -> rvs_shape params (Some [n]) = Ok [n]) /\
  (~ (exists k, u = repeat 1 k \/ u = repeat 1 k ++ [n]) ->
   rvs_shape params (Some [n]) = Raise (ValueError "size does not match the broadcast shape of the parameters")).
Proof. exact plain_number. Qed.

(** The page: lam of shape (2, 2), 100 samples *)
Example C92_case_plain : joint [[2; 2]] [2; 2] /\ ~ (exists k, [2; 2] = repeat 1 k \/ [2; 2] = repeat 1 k ++ [100]).
Proof. split; [apply joint_one|]. intros ([|[|k]] & [E|E]); discriminate. Qed.
Print Assumptions C92_plain_number.

(** C92 (false): the page says that the number alone fails for vector parameters.  For a
    vector of as many entries as samples are asked for it does not: scipy returns one sample
    of each entry. *)
Theorem C92_vector_refuted : forall n : nat, rvs_shape [[n]] (Some [n]) = Ok [n].
Proof. exact plain_number_vector. Qed.
Print Assumptions C92_vector_refuted.
