(** C100: missing values (NaN, NULL) are not silently lost. *)

From Coq Require Import ZArith Bool String.
From Flocq Require Import Core BinarySingleNaN.
From Verif Require Import Model.Num Model.Py Model.Table Model.Float64 Spec.Missing Proofs.Missing.
From Coq Require Import List.
Import ListNotations.
Open Scope string_scope.
Open Scope list_scope.

(** C100: the table of flows covers every function, with all its arguments and parameters. *)
Theorem C100_complete :
  forall f, exists w, In w flows /\ f_fn w = f /\ NoDup (f_arguments w) /\
  forall (A : Type) (NA : Num A) (U : Ufuncs A) args, length args = length (f_arguments w) ->
  exists r, run (NA := NA) U f args = Ok r /\ length r = length (f_result w).
Proof.
  intros f. destruct (flows_complete f) as (w & Hw & <-). exists w. split; [exact Hw|]. split; [reflexivity|].
  split; [exact (names_once w Hw)|]. intros A NA U args Hl. exact (flow_result NA U w args Hw Hl).
Qed.

Print Assumptions C100_complete.

(** C100: in binary64, a NaN argument makes every parameter NaN into whose formula it enters
    (the library functions being quiet about NaN, as C and numpy specify). *)
Theorem C100_nan :
  forall L w args i j name out from x, propagates_nan L -> In w flows -> length args = length (f_arguments w) ->
  nth_error (f_arguments w) i = Some name -> nth_error (f_result w) j = Some (out, from) -> In name from ->
  nth_error args i = Some x -> is_nan x = true ->
  exists r y, run_f64 L (f_fn w) args = Ok r /\ nth_error r j = Some y /\ is_nan y = true.
Proof.
  intros L w args i j name out from x HL Hw Hl Hi Hj Hin Hx Nx.
  exact (missing_carried (NumF64 L) (Ufuncs_f64 L) nan (nan_absorbing L HL) w args i j name out from x Hw Hi Hj Hin Hl Hx Nx).
Qed.

(** normal_known_variance(x_total=NaN, n=4, var=1, prior=Normal(0, 1)): mu is NaN, sigma is not *)
Example C100_case_nan :
  propagates_nan libm_by_sqrt /\
  match run_f64 libm_by_sqrt F_normal_known_variance [B754_nan; f64_of 4 0; f64_of 1 0; f64_of 0 0; f64_of 1 0] with
  | Ok [mu; sigma] => is_nan mu = true /\ is_nan sigma = false
  | _ => False
  end.
Proof. split; [exact libm_by_sqrt_propagates|]. vm_compute. split; reflexivity. Qed.

Print Assumptions C100_nan.

(** C100: the same for every number type with values that all operations absorb, such as the
    NULL of a nullable column. *)
Theorem C100_absorbing :
  forall (A : Type) (NA : Num A) (U : Ufuncs A) (missing : A -> Prop) w args i j name out from x,
  absorbing NA U missing -> In w flows -> length args = length (f_arguments w) ->
  nth_error (f_arguments w) i = Some name -> nth_error (f_result w) j = Some (out, from) -> In name from ->
  nth_error args i = Some x -> missing x ->
  exists r y, run (NA := NA) U (f_fn w) args = Ok r /\ nth_error r j = Some y /\ missing y.
Proof.
  intros A NA U missing w args i j name out from x Ab Hw Hl Hi Hj Hin Hx Mx.
  exact (missing_carried NA U missing Ab w args i j name out from x Hw Hi Hj Hin Hl Hx Mx).
Qed.

Print Assumptions C100_absorbing.

Theorem C100_null :
  forall (A : Type) (NA : Num A) (U : Ufuncs A),
  absorbing (NumNullable NA) (Ufuncs_nullable U) (fun x => x = None) /\
  (forall f args, run (NA := NumNullable NA) (Ufuncs_nullable U) f (map Some args) = rmap (map Some) (run (NA := NA) U f args)).
Proof. intros A NA U. exact (conj (null_absorbing NA U) (nullable_values NA U)). Qed.

(** a NULL in x leaves no parameter of a Beta posterior, one in n leaves alpha *)
Example C100_case_null :
  run (NA := NumNullable (NumF64 libm_by_sqrt)) (Ufuncs_nullable (Ufuncs_f64 libm_by_sqrt)) F_binomial_beta
    [Some (f64_of 5 0); None; Some (f64_of 1 0); Some (f64_of 1 0)] = Ok [None; None] /\
  exists a, run (NA := NumNullable (NumF64 libm_by_sqrt)) (Ufuncs_nullable (Ufuncs_f64 libm_by_sqrt)) F_binomial_beta
    [None; Some (f64_of 5 0); Some (f64_of 1 0); Some (f64_of 1 0)] = Ok [Some a; None].
Proof. split; [reflexivity|]. eexists. reflexivity. Qed.

Print Assumptions C100_null.

(** C100: the other parameters are untouched: they are the same whatever the arguments that do
    not enter their formula, in every number type. *)
Theorem C100_confined :
  forall (A : Type) (NA : Num A) (U : Ufuncs A) w args args' j out from,
  In w flows -> nth_error (f_result w) j = Some (out, from) ->
  length args = length (f_arguments w) -> length args' = length (f_arguments w) ->
  (forall i name, nth_error (f_arguments w) i = Some name -> In name from -> nth_error args i = nth_error args' i) ->
  exists r r' y, run (NA := NA) U (f_fn w) args = Ok r /\ run (NA := NA) U (f_fn w) args' = Ok r' /\
    nth_error r j = Some y /\ nth_error r' j = Some y.
Proof. intros A NA U. exact (confined NA U). Qed.

(** poisson_gamma: beta does not depend on x_total *)
Example C100_case_confined :
  exists w, In w flows /\ f_fn w = F_poisson_gamma /\ nth_error (f_result w) 1 = Some ("beta", ["prior.beta"; "n"]) /\
  nth_error (f_arguments w) 0 = Some "x_total".
Proof.
  destruct (flows_complete F_poisson_gamma) as (w & Hw & E). exists w. split; [exact Hw|]. split; [exact E|].
  unfold flows in Hw. simpl in Hw. repeat (destruct Hw as [<-|Hw]; [try discriminate E; split; reflexivity|]). contradiction.
Qed.

Print Assumptions C100_confined.

(** C100 as one would like it, "a NaN argument is seen in the result", is false: three
    arguments enter no parameter, and a NaN there is lost. *)
Theorem C100_ignored_refuted :
  exists L w args i, propagates_nan L /\ In w flows /\ length args = length (f_arguments w) /\
  nth_error args i = Some B754_nan /\
  exists r, run_f64 L (f_fn w) args = Ok r /\ forall y, In y r -> is_nan y = false.
Proof.
  exists libm_by_sqrt, (mkFlow F_hypergeometric_beta_binomial ["x_total"; "n"; "prior.n"; "prior.alpha"; "prior.beta"]
    [("n", ["prior.n"]); ("alpha", ["prior.alpha"; "x_total"]); ("beta", ["prior.beta"; "prior.n"; "x_total"])]),
    [f64_of 2 0; B754_nan; f64_of 10 0; f64_of 1 0; f64_of 1 0], 1%nat.
  split; [exact libm_by_sqrt_propagates|]. split; [unfold flows; do 6 right; left; reflexivity|].
  split; [reflexivity|]. split; [reflexivity|]. eexists. split; [reflexivity|].
  intros y [<-|[<-|[<-|[]]]]; vm_compute; reflexivity.
Qed.

Print Assumptions C100_ignored_refuted.

(** C100: exactly the arguments in [unused] enter no parameter, the result is the same
    whatever they are, and a NaN in any other argument is seen in the result. *)
Theorem C100_unused :
  forall w name, In w flows -> In name (f_arguments w) ->
  (In (f_fn w, name) unused ->
   forall (A : Type) (NA : Num A) (U : Ufuncs A) args args',
   length args = length (f_arguments w) -> length args' = length (f_arguments w) ->
   (forall i s, nth_error (f_arguments w) i = Some s -> s <> name -> nth_error args i = nth_error args' i) ->
   run (NA := NA) U (f_fn w) args = run (NA := NA) U (f_fn w) args') /\
  (~ In (f_fn w, name) unused ->
   forall L args i, propagates_nan L -> length args = length (f_arguments w) ->
   nth_error (f_arguments w) i = Some name -> nth_error args i = Some B754_nan ->
   exists r, run_f64 L (f_fn w) args = Ok r /\ In B754_nan r).
Proof. exact unused_seen. Qed.

Example C100_case_unused :
  exists w, In w flows /\ In "beta" (f_arguments w) /\ In (f_fn w, "beta") unused.
Proof.
  destruct (flows_complete F_gamma_known_rate) as (w & Hw & E). exists w. split; [exact Hw|].
  rewrite E. split; [|right; left; reflexivity].
  unfold flows in Hw. simpl in Hw. repeat (destruct Hw as [<-|Hw]; [try discriminate E; simpl; tauto|]). contradiction.
Qed.

Print Assumptions C100_unused.

(** C100: the propagation needs np.maximum (or any function that reports NaN) for [max_fn]:
    with Python's built-in [max] a NaN maximum is dropped, and the posterior is that of a
    data set without it. *)
Theorem C100_builtin_max_refuted :
  forall L n x_m alpha, lm_max L = builtin_max -> is_nan x_m = false ->
  exists alpha', run_f64 L F_uniform_pareto [B754_nan; n; x_m; alpha] = Ok [x_m; alpha'].
Proof. exact builtin_max_drops. Qed.

Example C100_case_builtin_max :
  match run_f64 (mkLibm pow_by_sqrt (fun _ => B754_nan) builtin_max (fun _ => B754_nan) (fun _ => B754_nan) (fun _ _ => B754_nan))
    F_uniform_pareto [B754_nan; f64_of 3 0; f64_of 1 0; f64_of 1 0] with
  | Ok [x_m; alpha] => B2SF x_m = B2SF (f64_of 1 0) /\ B2SF alpha = B2SF (f64_of 4 0)
  | _ => False
  end.
Proof. vm_compute. split; reflexivity. Qed.

Print Assumptions C100_builtin_max_refuted.
