(** docs/examples/sampling-distributions.md: sizes of samples. *)

From Coq Require Import Reals ZArith String Lia Bool.
From Verif Require Import Model.Num Model.Py Model.Dists Model.NdArray Model.Sampling.
From Verif Require Import Spec.Shapes Proofs.Shapes Proofs.Sampling Proofs.SamplingLaws.
From Coq Require Import List.
Import ListNotations.
Local Open Scope nat_scope.

Lemma fits_prepend s n : fits s (n :: s).
Proof.
  unfold fits. cbn [rev]. generalize (rev s). intros r. induction r; cbn [app]; constructor; auto.
Qed.

Lemma prepended params u n : joint params u -> rvs_shape params (Some (n :: u)) = Ok (n :: u).
Proof. intros J. apply (rvs_shape_ok _ u); auto. apply fits_prepend. Qed.

Lemma squeeze_left_ones u : exists k, u = repeat 1 k ++ squeeze_left u.
Proof.
  induction u as [|c u (k & IH)]; [exists 0; reflexivity|]. destruct c as [|[|c]]; try (exists 0; reflexivity).
  exists (S k). cbn [repeat app squeeze_left]. now f_equal.
Qed.
Lemma squeeze_left_head u : match squeeze_left u with [] => True | c :: _ => c <> 1 end.
Proof. induction u as [|c u IH]; [exact I|]. destruct c as [|[|c]]; cbn; auto. Qed.
Lemma squeeze_left_repeat k v : squeeze_left (repeat 1 k ++ v) = squeeze_left v.
Proof. induction k; auto. Qed.
Lemma squeeze_left_single n : n <> 1 -> squeeze_left [n] = [n].
Proof. destruct n as [|[|n]]; auto. congruence. Qed.

Lemma dims_ok_app_false a c : forall b d, length a = length b -> c <> 1 -> c <> d -> dims_ok (a ++ [c]) (b ++ [d]) = false.
Proof.
  induction a as [|x a IH]; intros [|y b] d HL Hc Hd; try discriminate; cbn [app dims_ok].
  - apply Nat.eqb_neq in Hc, Hd. now rewrite Hc, Hd.
  - rewrite IH by (auto; cbn in HL; lia). apply andb_false_r.
Qed.

Lemma plain_number params u n : joint params u ->
  ((exists k, u = repeat 1 k \/ u = repeat 1 k ++ [n]) -> rvs_shape params (Some [n]) = Ok [n]) /\
  (~ (exists k, u = repeat 1 k \/ u = repeat 1 k ++ [n]) ->
   rvs_shape params (Some [n]) = Raise (ValueError "size does not match the broadcast shape of the parameters")).
Proof.
  intros J. unfold rvs_shape. rewrite (broadcast_all_eq _ _ J). destruct (squeeze_left_ones u) as (k0 & E). pose proof (squeeze_left_head u) as Hd.
  split.
  - intros (k & [-> | ->]).
    + rewrite <- (app_nil_r (repeat 1 k)), squeeze_left_repeat. reflexivity.
    + rewrite squeeze_left_repeat. destruct (Nat.eq_dec n 1) as [->|Hn]; [reflexivity|]. rewrite squeeze_left_single by auto.
      cbn. now rewrite Nat.eqb_refl, orb_true_r.
  - intros N. destruct (squeeze_left u) as [|c r]; [exfalso; apply N; exists k0; left; now rewrite E at 1; rewrite app_nil_r|].
    destruct r as [|c' r].
    + cbn. destruct (Nat.eqb_spec c 1); [congruence|]. destruct (Nat.eqb_spec c n) as [->|]; [exfalso; apply N; exists k0; now right|]. reflexivity.
    + cbn [length]. replace (S (S (length r)) - 1) with (S (length r)) by lia. cbn [repeat app].
      replace (dims_ok (rev (c :: c' :: r)) (rev (1 :: repeat 1 (length r) ++ [n]))) with false; [reflexivity|].
      symmetry. change (rev (c :: c' :: r)) with (rev (c' :: r) ++ [c]). change (rev (1 :: repeat 1 (length r) ++ [n])) with (rev (repeat 1 (length r) ++ [n]) ++ [1]).
      apply dims_ok_app_false; auto. rewrite !rev_length, app_length, repeat_length. cbn. lia.
Qed.

Lemma plain_number_vector n : rvs_shape [[n]] (Some [n]) = Ok [n].
Proof. apply (plain_number [[n]] [n] n (joint_one _)). exists 0. now right. Qed.
