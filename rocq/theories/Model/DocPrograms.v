(** Small programs of the documentation and of scripts/, written with the library. *)

From Coq Require Import ZArith Bool String List Reals.
From Verif Require Import Model.Num Model.Py Model.Dists Model.Models Model.Table Model.NdArray Model.PyNum.
From Verif Require Import Model.Validate Model.ByName.
Import ListNotations.
Open Scope R_scope.

(** ** docs/examples/thompson.md *)

(** np.argmin: the first index of the smallest entry.  [best] is the smallest so far, at [at_]. *)
Fixpoint argmin_from (best : R) (at_ here : nat) (l : list R) : nat :=
  match l with
  | [] => at_
  | x :: l => if Rlt_dec x best then argmin_from x here (S here) l else argmin_from best at_ (S here) l
  end.
Definition argmin (l : list R) : nat := match l with [] => 0%nat | x :: l => argmin_from x 0 1 l end.

(** thompson.md:49-60 bayesian_update_stats: zero everywhere but in the group sampled. *)
Definition only_at (n_groups group : nat) (v : R) : nd R :=
  mkNd [n_groups] (fun i => if Nat.eqb (nth 0 i 0%nat) group then v else 0).

Section Thompson.
Variable arctan2 : R -> R -> R.
Variable n_groups : nat.
(** The random generator, with arbitrary behaviour: a draw of [estimate.dist.rvs], one
    number per group, and a draw of the waiting time of a group. *)
Variable G : Type.
Variable draw_estimate : nd R * nd R -> G -> (nat -> R) * G.
Variable draw_wait : nat -> G -> R * G.

(** What happened in a step: the sampled estimates, the group chosen, its waiting time. *)
Record step := mkStep { s_sample : list R; s_group : nat; s_wait : R }.

(** thompson.md:63-71 thompson_step *)
Definition thompson_step (estimate : nd R * nd R) (g : G) : res (nd R * nd R * G * step) :=
  let '(sample, g) := draw_estimate estimate g in
  let sample := map sample (seq 0 n_groups) in
  let group_to_sample := argmin sample in
  let '(group_sample, g) := draw_wait group_to_sample g in
  let x := only_at n_groups group_to_sample group_sample in
  let n := only_at n_groups group_to_sample 1 in
  let* posterior := run_nd (Ufuncs_R arctan2) F_exponential_gamma [x; n; fst estimate; snd estimate] in
  match posterior with
  | [alpha; beta] => Ok (alpha, beta, g, mkStep sample group_to_sample group_sample)
  | _ => arity_error
  end.

(** thompson.md:78-86: the loop, from [alpha = beta = np.ones(n_groups)]; the steps are
    recorded latest first. *)
Fixpoint thompson (total_samples : nat) (g : G) : res (nd R * nd R * G * list step) :=
  match total_samples with
  | O => let ones := mkNd [n_groups] (fun _ => 1) in Ok (ones, ones, g, [])
  | S k =>
      let* before := thompson k g in
      let '(alpha, beta, g, steps) := before in
      let* after := thompson_step (alpha, beta) g in
      let '(alpha, beta, g, s) := after in
      Ok (alpha, beta, g, s :: steps)
  end.
End Thompson.

(** ** docs/index.md:98-108 *)

(** [np.arange(n_times) + 1] and [samples.cumsum()] *)
Definition arange1 (n_times : nat) : nd R := mkNd [n_times] (fun i => INR (nth 0 i 0%nat) + 1).
Definition cumsum (samples : list R) : nd R :=
  mkNd [length samples] (fun i => fold_left Rplus (firstn (S (nth 0 i 0%nat)) samples) 0).
(** [binomial_beta(n=n, x=samples.cumsum(), prior=prior)] *)
Definition running_posterior (arctan2 : R -> R -> R) (samples : list R) (prior : Beta R) : res (list (nd R)) :=
  run_nd (Ufuncs_R arctan2) F_binomial_beta
    [arange1 (length samples); cumsum samples; scalar (Beta_alpha prior); scalar (Beta_beta prior)].

(** ** scripts/post-engagement.py:48-56 *)

(** [Beta.from_mean(mean=rate, alpha=1)] *)
Definition engagement_prior {A} {NA : Num A} (rate : A) : Beta A := Beta_from_mean rate (nlit 1).
(** [binomial_beta(n=IMPRESSIONS, x=REACTIONS, <keyword>=prior)] *)
Definition post_engagement_as {A} {NA : Num A} (keyword : string) (U : Ufuncs A) (rate : A) (impressions reactions : A)
  : outcome (obj (pyval A)) :=
  let prior := engagement_prior rate in
  let number a := OInst cfloat [] (VNum a) in
  python_call U "binomial_beta" []
    [("n"%string, number impressions); ("x"%string, number reactions);
     (keyword, OInst cBeta [cContinuousPlotDistMixin; cPlotDistMixin; cSliceMixin]
        (VDist [("alpha"%string, ANum (Beta_alpha prior)); ("beta"%string, ANum (Beta_beta prior))]))].
(** the keyword of the script *)
Definition post_engagement {A} {NA : Num A} := @post_engagement_as A NA "beta_prior".

(** ** docs/examples/linear-regression.md:53-54 *)

(** [np.stack([np.ones_like(x), x]).T]: stack puts a new first axis, [.T] reverses the axes. *)
Definition create_X (x : nd R) : nd R :=
  mkNd (rev (2%nat :: nd_shape x))
    (fun i => match rev i with [] => 0 | O :: _ => 1 | _ :: j => nd_entry x j end).

(** ** docs/examples/bootstrap.md:86-90 get_posterior_predictive *)
Definition get_posterior_predictive (data : list R) (prior : Gamma R) : NegativeBinomial R :=
  let x_total := fold_left Rplus data 0 in
  let n := INR (length data) in
  let posterior := poisson_gamma x_total n prior in
  poisson_gamma_predictive posterior 1.
