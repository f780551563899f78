(** C67-C70: the element-wise functions in IEEE 754 binary64. *)

From Coq Require Import ZArith Reals Lra Lia.
From Flocq Require Import Core BinarySingleNaN.
From Verif Require Import Model.Num Model.Py Model.Dists Model.Models Model.Table Model.Symbolic Model.PyNum Model.Float64.
From Verif Require Import Spec.Bayes Spec.Floating Proofs.Floating Proofs.FloatModels.
From Coq Require Import List.
Import ListNotations.
Open Scope R_scope.

(** C67: for every function, an output whose formula only uses [+ - * /],
    literals and maximum is the exact real result, bit for bit, whenever every
    intermediate result of the exact computation is representable. *)
Theorem C67_exact_when_representable :
  forall (L : Libm) (arctan2 : R -> R -> R) (f : fn) (args : list f64) (outs : list expr),
  max_correct L -> Forall finite args -> run Ufuncs_expr f (columns (length args)) = Ok outs ->
  exists fouts, run_f64 L f args = Ok fouts /\
    run (Ufuncs_R arctan2) f (map value args) = Ok (map (exact arctan2 args) outs) /\
    Forall2 (fun e v => plain e = true ->
      (forall e', In e' (intermediates e) -> representable (exact arctan2 args e')) ->
      no_zero_division (exact arctan2 args) e ->
      finite v /\ value v = exact arctan2 args e) outs fouts.
Proof. exact run_exact. Qed.

Print Assumptions C67_exact_when_representable.

(** C67: in particular whole numbers up to 2^26 give exact posteriors. *)
Theorem C67_counts_are_exact :
  forall (L : Libm) (arctan2 : R -> R -> R) (f : fn) (args : list f64) (out : list R),
  max_correct L -> In f counting_fns -> Forall count args ->
  run (Ufuncs_R arctan2) f (map value args) = Ok out ->
  exists fout, run_f64 L f args = Ok fout /\ Forall finite fout /\ map value fout = out.
Proof. exact run_counts. Qed.

(** the assumption on the maximum can be met; negative_binomial_beta with r = 3, 5 trials, 7 failures, prior Beta(1, 2) *)
Example C67_case :
  max_correct libm_by_sqrt /\
  Forall count [f64_of 3 0; f64_of 5 0; f64_of 7 0; f64_of 1 0; f64_of 2 0] /\
  run (Ufuncs_R (fun _ _ => 0)) F_negative_binomial_beta [3; 5; 7; 1; 2] = Ok [1 + 3 * 5; 2 + 7].
Proof.
  split. exact max_by_sqrt. split. 2: reflexivity.
  repeat (apply Forall_cons || apply Forall_nil);
    match goal with |- count (f64_of ?z 0) => destruct (nlit_exact z) as [F V]; [lia|]; split; [exact F|exists z; split; [lia|exact V]] end.
Qed.

Print Assumptions C67_counts_are_exact.

(** C68: for every function, an output whose formula subtracts nothing but
    inputs is within a known number of roundings of the exact result, as long
    as no intermediate result is extremely large or small. *)
Theorem C68_roundings :
  forall (L : Libm) (arctan2 : R -> R -> R) (f : fn) (args : list f64) (outs : list expr),
  max_correct L -> pow_accurate L -> Forall finite args -> run Ufuncs_expr f (columns (length args)) = Ok outs ->
  exists fouts, run_f64 L f args = Ok fouts /\
    run (Ufuncs_R arctan2) f (map value args) = Ok (map (exact arctan2 args) outs) /\
    Forall2 (fun e v => stable e = true ->
      (forall e', In e' (intermediates e) -> tame 1000 (exact arctan2 args e')) ->
      no_zero_division (exact arctan2 args) e ->
      finite v /\ within (roundings e) (value v) (exact arctan2 args e)) outs fouts.
Proof. exact run_stable. Qed.

(** the assumptions on the C library can be met; the posterior mean of
    normal_known_variance is a stable formula with nine roundings *)
Example C68_case :
  max_correct libm_by_sqrt /\ pow_accurate libm_by_sqrt /\
  exists outs, run Ufuncs_expr F_normal_known_variance (columns 5) = Ok outs /\
    map stable outs = [true; true] /\ map roundings outs = [9%nat; 7%nat].
Proof. split. exact max_by_sqrt. split. exact pow_by_sqrt_accurate. eexists. repeat split. Qed.

Print Assumptions C68_roundings.

(** C68: 43 of the functions, called with floats that are zero or between
    2^-100 and 2^100, never overflow and return the exact result up to a
    relative error of 2^-48, whenever the exact computation is defined. *)
Theorem C68_relative_error :
  forall (L : Libm) (arctan2 : R -> R -> R) (f : fn) (args : list f64) (out : list R),
  max_correct L -> pow_accurate L -> In f stable_fns ->
  Forall (fun x => finite x /\ tame 100 (value x)) args -> ordered f (map value args) ->
  run_py arctan2 f (map value args) = Ok out ->
  exists fout, run_f64 L f args = Ok fout /\
    Forall2 (fun v x => finite v /\ Rabs (value v - x) <= / 2 ^ 48 * x /\ (0 < x -> 0 < value v)) fout out.
Proof. exact run_models. Qed.

(** binomial_beta: 3 successes in 10 trials, prior Beta(0.1, 0.5) *)
Example C68_case_models :
  let args := [f64_of 10 0; f64_of 3 0; f64_of 3602879701896397 (-55); f64_of 1 (-1)] in
  Forall (fun x => finite x /\ tame 100 (value x)) args /\ ordered F_binomial_beta (map value args) /\
  exists out, run_py (fun _ _ => 0) F_binomial_beta (map value args) = Ok out.
Proof.
  assert (H : forall m e, (0 < m < 2 ^ 53)%Z -> (-100 <= e <= 47)%Z -> finite (f64_of m e) /\ tame 100 (value (f64_of m e))).
  { intros m e Hm He. destruct (lit_exact m e) as [F V]. { exists m, e. repeat split; lia. }
    split; auto. right. rewrite V.
    assert (A : 1 <= IZR m) by (apply IZR_le; lia). assert (B : IZR m <= bpow radix2 53).
    { change (bpow radix2 53) with (IZR (2 ^ 53)). apply IZR_le. lia. }
    change 2 with (IZR radix2). rewrite <- bpow_powerRZ. change (IZR radix2) with 2. rewrite <- (bpow_neg 100), <- (bpow_nat 100).
    assert (C : bpow radix2 (- Z.of_nat 100) <= bpow radix2 e) by (apply bpow_le; lia). pose proof (bpow_gt_0 radix2 e). split. nra.
    apply Rle_trans with (bpow radix2 53 * bpow radix2 e). apply Rmult_le_compat_r; lra. rewrite <- bpow_plus. apply bpow_le. lia. }
  cbv zeta. split; [|split].
  - repeat (apply Forall_cons || apply Forall_nil); apply H; lia.
  - change (value (f64_of 3 0) <= value (f64_of 10 0)). destruct (nlit_exact 10) as [_ ->]; [lia|]. destruct (nlit_exact 3) as [_ ->]; [lia|]. lra.
  - eexists. reflexivity.
Qed.

Print Assumptions C68_relative_error.

(** C69: geometric_beta counted from one, written [beta + x_total - n], returns
    a Beta with second parameter zero although the exact one is positive. *)
Theorem C69_geometric_beta_refuted :
  forall L : Libm, let args := [f64_of 1 0; f64_of 1 0; f64_of 1 0; f64_of 1 (-60)] in
  (exists a b, run_f64 L (F_geometric_beta true) args = Ok [a; b] /\ finite b /\ value b = 0) /\
  (forall arctan2, exists a b, run (Ufuncs_R arctan2) (F_geometric_beta true) (map value args) = Ok [a; b] /\ 0 < b).
Proof. intros L. split. exact (geometric_absorbs L). exact geometric_exact. Qed.

Print Assumptions C69_geometric_beta_refuted.

(** C69: normal_known_mean on one observation returns an InverseGamma with a
    negative scale; exactly it is a little more than one half. *)
Theorem C69_normal_known_mean_refuted :
  forall L : Libm, squares_by_product L ->
  (exists a b, run_f64 L F_normal_known_mean_ig known_mean_data = Ok [a; b] /\ finite b /\ value b < 0) /\
  (forall arctan2, run (Ufuncs_R arctan2) F_normal_known_mean_ig (map value known_mean_data) = Ok [1 + 1 / 2; / 2 ^ 10 + / 2]).
Proof. intros L H. split. exact (known_mean_negative L H). exact known_mean_exact. Qed.

Print Assumptions C69_normal_known_mean_refuted.

(** C69: normal on three equal observations returns a NormalInverseGamma with
    a negative [beta]; exactly [beta] stays what it was, 2^-40. *)
Theorem C69_normal_refuted :
  forall L : Libm, squares_by_product L ->
  (exists mu a b nu, run_f64 L F_normal_nig normal_data = Ok [mu; a; b; nu] /\ finite b /\ value b < 0) /\
  (forall arctan2, exists nu,
     run (Ufuncs_R arctan2) F_normal_nig (map value normal_data) = Ok [48; 1 + 3 / 2; / 2 ^ 40; nu + 3] /\ 0 < nu).
Proof. intros L H. split. exact (normal_negative L H). exact normal_exact. Qed.

Example C69_case : squares_by_product libm_by_sqrt.
Proof. exact squares_by_sqrt. Qed.

Print Assumptions C69_normal_refuted.

(** C69: the functions that subtract nothing but inputs keep positive
    parameters positive. *)
Theorem C69_stable_functions :
  forall (L : Libm) (arctan2 : R -> R -> R) (f : fn) (args : list f64) (out : list R),
  max_correct L -> pow_accurate L -> In f stable_fns ->
  Forall (fun x => finite x /\ tame 100 (value x)) args -> ordered f (map value args) ->
  run_py arctan2 f (map value args) = Ok out ->
  exists fout, run_f64 L f args = Ok fout /\ Forall2 (fun v x => finite v /\ (0 < x -> 0 < value v)) fout out.
Proof. exact run_models_positive. Qed.

Print Assumptions C69_stable_functions.

(** C70: updating a Poisson rate with two single events loses both, one batch of two does not. *)
Theorem C70_sequential_refuted :
  forall L : Libm,
  let step p := poisson_gamma (NA := NumF64 L) (f64_of 1 0) (f64_of 1 0) p in
  let prior := mkGamma (f64_of (2 ^ 53) 0) (f64_of 1 0) in
  value (Gamma_alpha (step (step prior))) = 2 ^ 53 /\
  value (Gamma_alpha (poisson_gamma (NA := NumF64 L) (f64_of 2 0) (f64_of 2 0) prior)) = 2 ^ 53 + 2.
Proof. exact poisson_absorbs. Qed.

Print Assumptions C70_sequential_refuted.

(** C70: with whole numbers and totals up to 2^53, any number of batches gives
    exactly the posterior of the totals. *)
Theorem C70_whole_numbers_exact :
  forall (L : Libm) (bs : list (f64 * f64)) (a b : f64), whole a -> whole b ->
  Forall (fun p => whole (fst p) /\ whole (snd p)) bs -> value a + sum1 bs <= 2 ^ 53 -> value b + sum2 bs <= 2 ^ 53 ->
  let exactly a' b' := finite a' /\ finite b' /\ value a' = value a + sum1 bs /\ value b' = value b + sum2 bs in
  (let post := fold_left (fun p b => poisson_gamma (NA := NumF64 L) (fst b) (snd b) p) bs (mkGamma a b) in
   exactly (Gamma_alpha post) (Gamma_beta post)) /\
  (let post := fold_left (fun p b => exponential_gamma (NA := NumF64 L) (fst b) (snd b) p) bs (mkGamma a b) in
   exactly (Gamma_alpha post) (Gamma_beta post)) /\
  (let post := fold_left (fun p b => weibull_inverse_gamma_known_shape (NA := NumF64 L) (fst b) (snd b) p) bs (mkInverseGamma a b) in
   exactly (InverseGamma_alpha post) (InverseGamma_beta post)).
Proof. exact sequences_exact. Qed.

Example C70_case : whole (f64_of 1 0) /\ value (f64_of 1 0) + sum1 [(f64_of 4 0, f64_of 2 0); (f64_of 5 0, f64_of 2 0)] <= 2 ^ 53.
Proof.
  split. { destruct (nlit_exact 1) as [F V]; [lia|]. split; auto. exists 1%Z. split; auto; lia. }
  unfold sum1. cbn [map fst]. destruct (nlit_exact 1) as [_ ->]; [lia|]. destruct (nlit_exact 4) as [_ ->]; [lia|].
  destruct (nlit_exact 5) as [_ ->]; [lia|]. unfold sumR. simpl. lra.
Qed.

Print Assumptions C70_whole_numbers_exact.

(** C70: with any nonnegative data, [m] batches give the posterior of the
    totals up to [m] roundings. *)
Theorem C70_sequential_error :
  forall (L : Libm) (bs : list (f64 * f64)) (a b : f64), finite a -> finite b ->
  / 2 ^ 1000 <= value a -> / 2 ^ 1000 <= value b ->
  Forall (fun p => finite (fst p) /\ finite (snd p) /\ 0 <= value (fst p) /\ 0 <= value (snd p)) bs ->
  INR (length bs) <= 2 ^ 52 -> value a + sum1 bs <= 2 ^ 1000 -> value b + sum2 bs <= 2 ^ 1000 ->
  let nearly a' b' := finite a' /\ finite b' /\
    within (length bs) (value a') (value a + sum1 bs) /\ within (length bs) (value b') (value b + sum2 bs) in
  (let post := fold_left (fun p b => poisson_gamma (NA := NumF64 L) (fst b) (snd b) p) bs (mkGamma a b) in
   nearly (Gamma_alpha post) (Gamma_beta post)) /\
  (let post := fold_left (fun p b => exponential_gamma (NA := NumF64 L) (fst b) (snd b) p) bs (mkGamma a b) in
   nearly (Gamma_alpha post) (Gamma_beta post)) /\
  (let post := fold_left (fun p b => weibull_inverse_gamma_known_shape (NA := NumF64 L) (fst b) (snd b) p) bs (mkInverseGamma a b) in
   nearly (InverseGamma_alpha post) (InverseGamma_beta post)).
Proof. exact sequences_within. Qed.

Example C70_case_error : / 2 ^ 1000 <= value (f64_of 1 0) /\ Forall (fun p => finite (fst p) /\ finite (snd p) /\ 0 <= value (fst p) /\ 0 <= value (snd p)) [(f64_of 3 0, f64_of 1 0)].
Proof.
  destruct (nlit_exact 1) as [F1 V1]; [lia|]. destruct (nlit_exact 3) as [F3 V3]; [lia|]. split.
  - rewrite V1, <- Rinv_1. apply Rinv_le_contravar. lra. apply pow_R1_Rle. lra.
  - repeat constructor; auto; cbn [fst snd]; rewrite ?V1, ?V3; lra.
Qed.

Print Assumptions C70_sequential_error.
