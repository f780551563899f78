(** C65: what is plotted when no bounds are set. *)

From Coq Require Import ZArith Reals Lra Lia Bool String.
From Coquelicot Require Import Coquelicot.
From Verif Require Import Model.Num Model.Py Model.Dists Model.ScipyDist Model.NdArray Model.SliceModel Model.PlotModel Model.Draw.
From Verif Require Import Spec.Special Spec.Densities Spec.Indexing Spec.Plotting Spec.Drawing Spec.DefaultBounds.
From Verif Require Import Proofs.DefaultBounds.
From Coq Require Import List.
Import ListNotations.
Open Scope R_scope.

(** C65: the numbers of trials are whole; the constructor takes the largest of them. *)
Theorem C65_counts :
  forall (release : list nat) (m : nat) (c : plot_class) (fields : list (string * param R)),
  In c plot_classes -> In (pc_name c) ["Binomial"; "BetaBinomial"]%string ->
  family m c fields -> (0 < m)%nat -> (forall l, get_field fields "n" <> Ok (PList l)) ->
  (forall j, (j < curves m fields)%nat -> exists k : nat, parameter fields "n" j (INR k)) ->
  exists o g, construct c fields = Ok o /\ snd (plot o) = Ok g /\
    (forall j d, (j < curves m fields)%nat -> member_dist release c fields j = Ok d -> shows_mass g d) /\
    (forall x, In x g -> exists j k, (j < curves m fields)%nat /\ parameter fields "n" j (INR k) /\ 0 <= x <= INR k).
Proof. exact counts_shown. Qed.

(** two binomial distributions, the larger number of trials second *)
Definition two_binomials : list (string * param R) :=
  [("n"%string, PArr (mkNd [2%nat] (fun i => INR (hd 0%nat i + 3)))); ("p"%string, PArr (scalar (1 / 2)))].
Example C65_case :
  let c := mkClass "Binomial" Discrete (MaxOf "n") in
  In c plot_classes /\ family 2 c two_binomials /\ curves 2 two_binomials = 2%nat /\
  (forall j, parameter two_binomials "n" j (INR (j + 3))) /\
  exists o g, construct c two_binomials = Ok o /\ snd (plot o) = Ok g /\ In 4 g.
Proof.
  assert (F : family 2 (mkClass "Binomial" Discrete (MaxOf "n")) two_binomials).
  { eexists. split; [right; left; reflexivity|].
    repeat (apply Forall2_cons; [cbn [fst snd]; split; [reflexivity|];
      split; [simpl; auto|split; [intros; discriminate|intros; discriminate]]|]); apply Forall2_nil. }
  assert (P : forall j, parameter two_binomials "n" j (INR (j + 3))) by (intros j; eexists; split; reflexivity).
  cbv zeta. split; [right; left; reflexivity|]. split; [exact F|]. split; [reflexivity|]. split; [exact P|].
  eexists _, _. split; [reflexivity|]. split; [reflexivity|].
  replace 4 with (INR 4) by (simpl; ring). apply arange_has. cbn [map fold_left]. apply Rmax_r.
Qed.

Print Assumptions C65_counts.

(** C65: the population bounds the number of draws. *)
Theorem C65_draws :
  forall (release : list nat) (m : nat) (c : plot_class) (fields : list (string * param R)),
  In c plot_classes -> pc_name c = "Hypergeometric"%string ->
  family m c fields -> (0 < m)%nat -> (forall l, get_field fields "N" <> Ok (PList l)) ->
  (forall j, (j < curves m fields)%nat -> exists k n : nat,
     parameter fields "N" j (INR k) /\ parameter fields "n" j (INR n) /\ (n <= k)%nat) ->
  exists o g, construct c fields = Ok o /\ snd (plot o) = Ok g /\
    (forall j d, (j < curves m fields)%nat -> member_dist release c fields j = Ok d -> shows_mass g d) /\
    (forall x, In x g -> exists j k, (j < curves m fields)%nat /\ parameter fields "N" j (INR k) /\ 0 <= x <= INR k).
Proof. exact draws_shown. Qed.

Definition one_hypergeometric : list (string * param R) :=
  [("N", PArr (scalar (INR 10))); ("k", PArr (scalar (INR 4))); ("n", PArr (scalar (INR 3)))]%string.
Example C65_draws_case :
  let c := mkClass "Hypergeometric" Discrete (MaxOf "N") in
  In c plot_classes /\ family 1 c one_hypergeometric /\ curves 1 one_hypergeometric = 1%nat /\
  parameter one_hypergeometric "N" 0 (INR 10) /\ parameter one_hypergeometric "n" 0 (INR 3).
Proof.
  cbv zeta. split; [simpl; tauto|]. split.
  { eexists. split; [do 5 right; left; reflexivity|].
    repeat (apply Forall2_cons; [cbn [fst snd]; split; [reflexivity|];
      split; [simpl; auto|split; [intros; discriminate|intros; discriminate]]|]); apply Forall2_nil. }
  split; [reflexivity|]. split; eexists; split; reflexivity.
Qed.

Print Assumptions C65_draws.

(** C65: from 0 to 1, whatever the parameters *)
Theorem C65_beta :
  forall (release : list nat) (c : plot_class) (fields : list (string * param R)),
  In c plot_classes -> pc_name c = "Beta"%string ->
  exists o g, construct c fields = Ok o /\ snd (plot o) = Ok g /\
    forall j d, member_dist release c fields j = Ok d -> shows_density g d.
Proof. exact beta_shown. Qed.

Example C65_beta_case :
  let c := mkClass "Beta" Continuous MaxOne in
  In c plot_classes /\
  member_dist [1; 11]%nat c [("alpha", PArr (scalar 2)); ("beta", PArr (scalar 3))]%string 0 = Ok (S_beta 2 3).
Proof. split; [left|]; reflexivity. Qed.

Print Assumptions C65_beta.

(** C65: once around the circle, from -pi to pi *)
Theorem C65_von_mises :
  forall (release : list nat) (c : plot_class) (fields : list (string * param R)),
  In c plot_classes -> pc_name c = "VonMises"%string ->
  exists o g, construct c fields = Ok o /\ snd (plot o) = Ok g /\
    forall j d, member_dist release c fields j = Ok d -> shows_circle g d.
Proof. exact circle_shown. Qed.

Example C65_von_mises_case :
  let c := mkClass "VonMises" Continuous Circle in
  In c plot_classes /\
  exists d, member_dist [1; 11]%nat c [("mu", PArr (scalar 2)); ("kappa", PArr (scalar 3))]%string 0 = Ok d.
Proof. split; [simpl; tauto|]. eexists. reflexivity. Qed.

Print Assumptions C65_von_mises.

(** C65 is false for Uniform with a positive lower end: the constructor takes the
    second parameter for the upper end, scipy takes it for the width. *)
Theorem C65_uniform_refuted :
  forall (release : list nat) (c : plot_class) (low high : R),
  In c plot_classes -> pc_name c = "Uniform"%string -> 0 < low <= high ->
  let fields := [("low", PArr (scalar low)); ("high", PArr (scalar high))]%string in
  exists o g d, construct c fields = Ok o /\ snd (plot o) = Ok g /\
    member_dist release c fields 0 = Ok d /\ ~ shows_density g d.
Proof. exact uniform_not_shown. Qed.

Example C65_uniform_case : In (mkClass "Uniform" Continuous (Between "low" "high")) plot_classes /\ 0 < 1 <= 3.
Proof. split; [simpl; tauto|lra]. Qed.

Print Assumptions C65_uniform_refuted.

(** C65: it holds for Uniform when the lower end is not positive. *)
Theorem C65_uniform :
  forall (release : list nat) (c : plot_class) (low high : R),
  In c plot_classes -> pc_name c = "Uniform"%string -> low <= 0 < high ->
  let fields := [("low", PArr (scalar low)); ("high", PArr (scalar high))]%string in
  exists o g d, construct c fields = Ok o /\ snd (plot o) = Ok g /\
    member_dist release c fields 0 = Ok d /\ shows_density g d.
Proof. exact uniform_shown. Qed.

Example C65_uniform_case2 : In (mkClass "Uniform" Continuous (Between "low" "high")) plot_classes /\ -1 <= 0 < 3.
Proof. split; [simpl; tauto|lra]. Qed.

Print Assumptions C65_uniform.

(** C65 is false for BetaNegativeBinomial: the number of successes does not bound the failures. *)
Theorem C65_beta_negative_binomial_refuted :
  forall (release : list nat) (c : plot_class) (n : nat) (a b : R),
  In c plot_classes -> pc_name c = "BetaNegativeBinomial"%string ->
  available release c -> (0 < n)%nat -> 0 < a -> 0 < b ->
  let fields := [("n", PArr (scalar (INR n))); ("alpha", PArr (scalar a)); ("beta", PArr (scalar b))]%string in
  exists o g d, construct c fields = Ok o /\ snd (plot o) = Ok g /\
    member_dist release c fields 0 = Ok d /\ ~ shows_mass g d.
Proof. exact betanbinom_not_shown. Qed.

Example C65_beta_negative_binomial_case :
  let c := mkClass "BetaNegativeBinomial" Discrete (MaxOf "n") in
  In c plot_classes /\ available [1; 12; 0]%nat c /\ (0 < 5)%nat /\ 0 < 2 /\ 0 < 3.
Proof. split; [simpl; tauto|]. split; [intros _; reflexivity|]. split; [lia|lra]. Qed.

Print Assumptions C65_beta_negative_binomial_refuted.
