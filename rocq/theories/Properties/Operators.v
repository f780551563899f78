(** C95: the operators between numbers, arrays and distributions. *)

From Coq Require Import Reals Lra Lia ZArith String.
From Verif Require Import Model.Num Model.Py Model.Dists Model.ScipyDist Model.Operators.
From Verif Require Import Spec.Densities Spec.Bayes Spec.Convolution Spec.Operators Proofs.Operators.
From Coq Require Import List.
Import ListNotations.
Open Scope R_scope.

(** C95: every product has a result or an exception. *)
Theorem C95_total : forall v w, exists r, times v w = Some r.
Proof. exact times_total. Qed.

Print Assumptions C95_total.

(** C95: a number may stand on either side. *)
Theorem C95_number :
  forall (d : pyval) (k : R), scalable d -> times (Nr k) d = times d (Nr k).
Proof. intros d k H. exact (eq_trans (proj2 (times_number d k H)) (eq_sym (proj1 (times_number d k H)))). Qed.

(** C95: and the result is the scaled distribution of C39 and C40: the exceptions are a zero
    scale of [Exponential] and the root of a negative number in [Normal]. *)
Theorem C95_number_values :
  forall k,
  (forall lam, times (Nr k) (poisson lam) = cret (poisson (Poisson_lam (Poisson_mul (mkPoisson lam) k)))) /\
  (forall a b, times (Nr k) (gamma a b) = cret (gamma (Gamma_alpha (Gamma_mul (mkGamma a b) k)) (Gamma_beta (Gamma_mul (mkGamma a b) k)))) /\
  (forall n p, times (Nr k) (negative_binomial n p) =
     let d := NegativeBinomial_mul (mkNegativeBinomial n p) k in cret (negative_binomial (NegativeBinomial_n d) (NegativeBinomial_p d))) /\
  (forall lam, lam <> 0 -> times (Nr k) (exponential lam) =
     let d := Exponential_mul (mkExponential lam) k in cret (gamma (Gamma_alpha d) (Gamma_beta d))) /\
  times (Nr k) (exponential 0) = craise ZeroDivisionError /\
  (forall mu s, 0 <= s ^ 2 * k -> times (Nr k) (normal mu s) =
     let d := Normal_mul (mkNormal mu s) k in cret (normal (Normal_mu d) (Normal_sigma d))) /\
  (forall mu s, s ^ 2 * k < 0 -> times (Nr k) (normal mu s) = craise ComplexResult).
Proof. exact number_values. Qed.

(** docs/examples/scaling-distributions.md: [7 * Poisson(1/4)] and [Normal(0, 1) * 2] *)
Example C95_number_case :
  times (Nr 7) (poisson (1 / 4)) = cret (poisson (7 / 4)) /\ times (normal 0 1) (Nr 2) = cret (normal 0 (sqrt 2)).
Proof.
  destruct (C95_number_values 7) as (H & _). rewrite H. split. unfold Poisson_mul. cbv [nmul NumR Poisson_lam]. do 2 f_equal. lra.
  rewrite <- (C95_number (normal 0 1) 2) by (unfold scalable; eauto 10). destruct (C95_number_values 2) as (_ & _ & _ & _ & _ & Hn & _).
  rewrite Hn by lra. unfold Normal_mul. cbv [nmul nsq nsqrt NumR Normal_mu Normal_sigma]. do 2 f_equal. now rewrite Rmult_0_l. f_equal. ring.
Qed.

Print Assumptions C95_number.
Print Assumptions C95_number_values.

(** C95: an array on the right makes one instance with array parameters; an array on the left
    makes an array of instances.  They hold the same distributions, in the same order: member
    [i] is the instance multiplied by element [i]. *)
Theorem C95_array :
  forall (d : pyval) (ks : list R),
  scalable d -> ks <> [] -> (forall k, In k ks -> exists r, times d (Nr k) = cret r) ->
  exists one many,
    times d (array ks) = cret one /\ times (array ks) d = cret (Arr many) /\ length many = length ks /\
    forall i, (i < length ks)%nat -> times d (Nr (nth i ks 0)) = cret (member i one) /\ nth i many (Nr 0) = member i one.
Proof. exact both_sides_times. Qed.

Example C95_array_case : scalable (poisson 2) /\ forall k, In k [1; 2; 3] -> exists r, times (poisson 2) (Nr k) = cret r.
Proof. split. unfold scalable; eauto 10. intros k _. exists (poisson (2 * k)). reflexivity. Qed.

Print Assumptions C95_array.

(** C95, refuted: that the sides do not matter for arrays. *)
Theorem C95_sides_refuted :
  ~ (forall (d : pyval) (ks : list R), scalable d -> times d (array ks) = times (array ks) d).
Proof. exact sides_differ. Qed.

Print Assumptions C95_sides_refuted.

(** C95: a sum that starts from a Poisson has the law of the sum of independent counts. *)
Theorem C95_sum :
  forall (lam : R) (rest : list R),
  py_sum (poisson lam) (map poisson rest) = cret (poisson (lam + sumR rest)) /\
  forall k : nat,
  pmf (Poisson_dist (mkPoisson (lam + sumR rest))) (Z.of_nat k) =
  sum_law (map (fun l i => pmf (Poisson_dist (mkPoisson l)) (Z.of_nat i)) (lam :: rest)) k.
Proof. intros lam rest. exact (conj (sum_from lam rest) (sum_law_poisson (lam :: rest))). Qed.

Example C95_sum_case : py_sum (poisson 1) [poisson 2; poisson 3] = cret (poisson 6).
Proof. destruct (C95_sum 1 [2; 3]) as (H & _). cbn [map] in H. rewrite H. do 2 f_equal. unfold sumR. cbn. lra. Qed.

Print Assumptions C95_sum.

(** C95, refuted: the built-in [sum] starts from the number 0, and [0 + Poisson] goes to
    [Poisson.__radd__], which asks the number for its rate. *)
Theorem C95_sum_refuted :
  forall (lam : R) (rest : list pyval), py_sum (Nr 0) (poisson lam :: rest) = craise (AttributeError "lam").
Proof. exact (sum_fails 0). Qed.

Print Assumptions C95_sum_refuted.

(** C95: with numbers and arrays of numbers, the parameters of the results are again numbers
    and arrays of numbers. *)
Theorem C95_proper :
  forall d w r, proper d -> numeric w ->
  (times d w = cret r -> proper r \/ exists l, r = Arr l /\ l = []) /\
  (times w d = cret r -> proper r \/ exists l, r = Arr l /\ Forall proper l).
Proof. exact stays_proper. Qed.

Example C95_proper_case : proper (normal 1 2) /\ numeric (array [1; 2]).
Proof.
  split. exists CNormal. eexists. split. reflexivity. repeat (apply Forall_nil || (apply Forall_cons; [left; eexists; reflexivity|])).
  right. now exists [1; 2].
Qed.

Print Assumptions C95_proper.

(** C95, refuted: that a product of distributions is an error.  It returns an instance whose
    parameter is a distribution.  And [Poisson + Exponential] adds a scale to a rate: any
    instance that has an attribute called lam passes for a Poisson. *)
Theorem C95_mistakes_refuted :
  (forall l1 l2, times (poisson l1) (poisson l2) = cret (Obj CPoisson [("lam"%string, poisson (l2 * l1))]) /\
                 ~ proper (Obj CPoisson [("lam"%string, poisson (l2 * l1))])) /\
  (forall lam scale, plus (poisson lam) (exponential scale) = cret (poisson (lam + scale)) /\
                     plus (exponential scale) (poisson lam) = cret (poisson (lam + scale))).
Proof. exact mistakes. Qed.

Print Assumptions C95_mistakes_refuted.

(** C95: [+] without a Poisson (and without arrays) is a TypeError. *)
Theorem C95_no_plus :
  forall v w, has_plus v = false -> has_plus w = false -> is_array v = false -> is_array w = false ->
  andb (is_number v) (is_number w) = false -> plus v w = craise bad_operand.
Proof. exact no_plus. Qed.

Example C95_no_plus_case : plus (normal 0 1) (normal 0 1) = craise bad_operand.
Proof. apply C95_no_plus; reflexivity. Qed.

Print Assumptions C95_no_plus.
