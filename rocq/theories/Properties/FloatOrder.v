(** C93: rounding never reverses what the evidence says, but it can lose it. *)

From Coq Require Import ZArith Reals Lra Lia.
From Flocq Require Import Core BinarySingleNaN.
From Verif Require Import Model.Num Model.Py Model.Dists Model.Models Model.Table Model.PyNum Model.Float64.
From Verif Require Import Spec.Floating Spec.FloatOrder Proofs.Floating Proofs.FloatModels Proofs.FloatOrder.
From Coq Require Import List.
Import ListNotations.
Open Scope R_scope.

(** C93: take a function that adds, subtracts and multiplies, and an argument.  If the exact
    result never falls when the argument grows, neither does the floating-point result:
    whatever the sizes, without any tolerance; and the same for results that never rise. *)
Theorem C93_order_kept :
  forall (L : Libm) (f : fn) (i j : nat) (args args' fout fout' : list f64),
  let zero := B754_zero false in
  max_correct L -> In f counting_fns ->
  Forall (fun x => finite x /\ 0 <= value x) args -> Forall (fun x => finite x /\ 0 <= value x) args' ->
  grows value zero i args args' ->
  run_f64 L f args = Ok fout -> run_f64 L f args' = Ok fout' -> Forall finite fout -> Forall finite fout' ->
  (exact_never_falls f i j -> value (nth j fout zero) <= value (nth j fout' zero)) /\
  (exact_never_rises f i j -> value (nth j fout' zero) <= value (nth j fout zero)).
Proof. intros L f i j args args' fout fout' zero. exact (order_kept L f i j args args' fout fout'). Qed.

(** binomial_beta: argument 1 (successes) never lowers [alpha] and never raises [beta]; it does move them *)
Example C93_case : exact_never_falls F_binomial_beta 1 0 /\ exact_never_rises F_binomial_beta 1 1 /\
  ~ exact_never_rises F_binomial_beta 1 0 /\
  grows value (B754_zero false) 1 [f64_of 5 0; f64_of 2 0; f64_of 1 0; f64_of 1 0] [f64_of 5 0; f64_of 3 0; f64_of 1 0; f64_of 1 0].
Proof.
  split; [|split; [|split]].
  - intros arctan2 args args' out out' _ _ (HL & S & G). do 5 (destruct args as [|? args]; [try discriminate|]); try discriminate.
    do 5 (destruct args' as [|? args']; [try discriminate|]); try discriminate. cbn in *. intros H H'. injection H as <-. injection H' as <-.
    pose proof (S 2%nat ltac:(lia)) as S2. cbn in *. lra.
  - intros arctan2 args args' out out' _ _ (HL & S & G). do 5 (destruct args as [|? args]; [try discriminate|]); try discriminate.
    do 5 (destruct args' as [|? args']; [try discriminate|]); try discriminate. cbn in *. intros H H'. injection H as <-. injection H' as <-.
    pose proof (S 3%nat ltac:(lia)) as S3. pose proof (S 0%nat ltac:(lia)) as S0. cbn in *. lra.
  - intros H. specialize (H (fun _ _ => 0) [5; 2; 1; 1] [5; 3; 1; 1] [1 + 2; 1 + (5 - 2)] [1 + 3; 1 + (5 - 3)]).
    cbn in H. enough (1 + 3 <= 1 + 2) by lra. apply H; try reflexivity; try (repeat constructor; lra).
    split. reflexivity. split. 2: cbn; lra. intros [|[|k]] Hk; try reflexivity. congruence.
  - split. reflexivity. split. intros [|[|k]] Hk; try reflexivity. congruence.
    change (value (f64_of 2 0) <= value (f64_of 3 0)). destruct (nlit_exact 2) as [_ ->]; [lia|]. destruct (nlit_exact 3) as [_ ->]; [lia|]. lra.
Qed.

Print Assumptions C93_order_kept.

(** C93: the posterior mean of normal_known_variance and normal_known_precision never falls when
    the data or the prior mean grow, also where they are negative; [**] only has to return a
    positive square. *)
Theorem C93_normal_mean :
  forall (L : Libm) (x x' n var mu mu' sigma : f64),
  0 < value (lm_pow L sigma (f64_of 2 0)) -> 0 <= value n -> value x <= value x' -> value mu <= value mu' ->
  (0 < value var ->
   let m := Normal_mu (normal_known_variance (NA := NumF64 L) x n var (mkNormal mu sigma)) in
   let m' := Normal_mu (normal_known_variance (NA := NumF64 L) x' n var (mkNormal mu' sigma)) in
   finite m -> finite m' -> value m <= value m') /\
  (0 < value (Bdiv mode_NE (f64_of 1 0) var) ->
   let m := Normal_mu (normal_known_precision (NA := NumF64 L) x n var (mkNormal mu sigma)) in
   let m' := Normal_mu (normal_known_precision (NA := NumF64 L) x' n var (mkNormal mu' sigma)) in
   finite m -> finite m' -> value m <= value m').
Proof.
  intros L x x' n var mu mu' sigma S N Hx Hm. split; intros V.
  exact (mean_order L x x' n var mu mu' sigma S V N Hx Hm). exact (mean_order_precision L x x' n var mu mu' sigma S V N Hx Hm).
Qed.

(** prior Normal(0, 2), variance 1, three observations with total 1 or 2 *)
Example C93_normal_case :
  0 < value (lm_pow libm_by_sqrt (f64_of 2 0) (f64_of 2 0)) /\
  finite (Normal_mu (normal_known_variance (NA := NumF64 libm_by_sqrt) (f64_of 1 0) (f64_of 3 0) (f64_of 1 0) (mkNormal (f64_of 0 0) (f64_of 2 0)))) /\
  finite (Normal_mu (normal_known_variance (NA := NumF64 libm_by_sqrt) (f64_of 2 0) (f64_of 3 0) (f64_of 1 0) (mkNormal (f64_of 0 0) (f64_of 2 0)))).
Proof.
  split; [|split; vm_compute; reflexivity].
  replace (value _) with 4. lra. symmetry. sf; lra.
Qed.

Print Assumptions C93_normal_mean.

(** C93: "more" need not be more: a success added to a Beta with [alpha = 2^53] changes nothing,
    although the exact [alpha] grows by one. *)
Theorem C93_evidence_lost_refuted :
  forall L : Libm, let prior := mkBeta (f64_of (2 ^ 53) 0) (f64_of 1 0) in
  let posterior := binomial_beta (NA := NumF64 L) (f64_of 1 0) (f64_of 1 0) prior in
  (value (Beta_alpha posterior) = value (Beta_alpha prior) /\ value (Beta_beta posterior) = value (Beta_beta prior)) /\
  Beta_alpha (binomial_beta 1 1 (mkBeta (2 ^ 53) 1)) = 2 ^ 53 + 1.
Proof. intros L. split. exact (success_lost L). reflexivity. Qed.

Print Assumptions C93_evidence_lost_refuted.
