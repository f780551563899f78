(** C106: numpy's booleans as data. *)

From Coq Require Import ZArith Bool String Reals Lra Lia.
From Verif Require Import Model.Num Model.Py Model.Table Model.PyNum Model.IntTypes Model.NpBool Spec.IntTypes Spec.Defined Spec.NpBool Proofs.NpBool.
From Coq Require Import List.
Import ListNotations.
Open Scope nat_scope.

(** C106: with booleans anywhere but in two places that are added or subtracted, or in one that
    is squared, every function gives the numbers of its formula with True for 1 and False for 0,
    and raises exactly when the formula is undefined. *)
Theorem C106_booleans : forall w arctan2 f args, no_clash f args -> others_moderate w f args ->
  plain_numbers (run_bool arctan2 f args) = run_py arctan2 f (map bvalue args).
Proof. exact run_booleans. Qed.

(** all of the data of a normal model are booleans *)
Example C106_booleans_case arctan2 :
  let args := [NBool true; NBool true; NBool true; Other (Flt 0); Other (PInt 1); Other (NInt int64 1); Other (PInt 1)] in
  no_clash F_normal_nig args /\ others_moderate W64 F_normal_nig args /\
  plain_numbers (run_bool arctan2 F_bernoulli_beta [NBool true; Other (PInt 1); Other (PInt 1)]) = Ok [2%R; 1%R].
Proof.
  split; [|split].
  - intros s [<-|[<-|[]]]; [exists 3|exists 6]; eexists; split; cbn; eauto.
  - intros v H. cbn in H. repeat (destruct H as [H|H]; [try discriminate; injection H as <-; cbn; try lia; auto; repeat split; lia|]). destruct H.
  - reflexivity.
Qed.
Print Assumptions C106_booleans.

(** C106: so booleans as data are right for every posterior function and any prior of numbers,
    unless both n and x of [binomial_beta] are booleans. *)
Theorem C106_boolean_data : forall w arctan2 f k args,
  data_count f = Some k -> prior_of_numbers k args -> others_moderate w f args -> length args = arity f ->
  (f = F_binomial_beta -> forall n x, nth_error args 0 = Some (NBool n) -> nth_error args 1 = Some (NBool x) -> False) ->
  plain_numbers (run_bool arctan2 f args) = run_py arctan2 f (map bvalue args).
Proof. exact run_boolean_data. Qed.

Example C106_boolean_data_case : let args := [NBool true; NBool false; NBool true; Other (Flt 2); Other (PInt 3)] in
  data_count F_negative_binomial_beta = Some 3 /\ prior_of_numbers 3 args /\ others_moderate W32 F_negative_binomial_beta args /\
  length args = arity F_negative_binomial_beta.
Proof.
  split; [reflexivity|]. split; [|split; [|reflexivity]].
  - intros i b H. do 5 (destruct i as [|i]; [try lia; cbn; discriminate|]). cbn. destruct i; discriminate.
  - intros v H. cbn in H. repeat (destruct H as [H|H]; [try discriminate; injection H as <-; cbn; try lia; auto|]). destruct H.
Qed.
Print Assumptions C106_boolean_data.

(** C106: the condition is needed: for every clash of two or more places (left out are the normal
    models and [pareto_gamma]) booleans in exactly these places give another result than 1 and 0. *)
Theorem C106_clashes_needed : forall arctan2 f s, In s (clashes f) -> 2 <= length s ->
  ~ In f [F_normal_nig; F_normal_ng; F_log_normal_nig; F_log_normal_ng; F_pareto_gamma] ->
  exists args, (forall i, (exists b, nth_error args i = Some (NBool b)) <-> In i s) /\
  plain_numbers (run_bool arctan2 f args) <> run_py arctan2 f (map bvalue args).
Proof. exact clash_differs. Qed.

Example C106_clashes_case : In [0; 1; 3] (clashes F_negative_binomial_beta) /\ 2 <= length [0; 1; 3].
Proof. cbn. split; [tauto|lia]. Qed.
Print Assumptions C106_clashes_needed.

(** C106: added to a numpy integer a boolean takes its type, however small, so that the sum wraps
    around as it would for an integer of that type: the alpha of bernoulli_beta. *)
Theorem C106_wraps : forall arctan2 x s a t b,
  exists va vb, run_bool arctan2 F_bernoulli_beta [NBool x; Other (NInt s a); Other (NInt t b)] = Ok [Other va; Other vb] /\
  right_modulo s va (IZR (a + Z.b2z x)) /\ exists z, va = NInt s z.
Proof. exact bernoulli_wraps. Qed.

(** np.int8(127) successes and one more: -128 *)
Example C106_wraps_case arctan2 : exists vb,
  run_bool arctan2 F_bernoulli_beta [NBool true; Other (NInt (mkIty true W8) 127); Other (NInt (mkIty true W8) 5)] =
  Ok [Other (NInt (mkIty true W8) (-128)); vb].
Proof. eexists. reflexivity. Qed.
Print Assumptions C106_wraps.

(** C106 is false when both are: each impression shown or not (n) and clicked or not (x).  The
    full claim would be [C106_booleans] without [no_clash]. *)
Theorem C106_both_refuted : forall arctan2 n x a b,
  run_bool arctan2 F_binomial_beta [NBool n; NBool x; Other (Flt a); Other (Flt b)] = Raise no_subtraction /\
  run_py arctan2 F_binomial_beta (map bvalue [NBool n; NBool x; Other (Flt a); Other (Flt b)])
    = Ok [a + IZR (Z.b2z x); b + (IZR (Z.b2z n) - IZR (Z.b2z x))]%R.
Proof. intros. split; [exact (both_booleans arctan2 n x a b)|reflexivity]. Qed.
Print Assumptions C106_both_refuted.

(** And when the prior is made of booleans there is no error but a wrong number. *)
Theorem C106_or_refuted : forall arctan2,
  run_bool arctan2 F_poisson_gamma [NBool true; Other (PInt 1); NBool true; Other (PInt 1)] = Ok [NBool true; Other (PInt 2)] /\
  run_py arctan2 F_poisson_gamma [1; 1; 1; 1]%R = Ok [2; 2]%R.
Proof. exact or_not_plus. Qed.
Print Assumptions C106_or_refuted.
