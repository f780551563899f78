(** C62, C63: what plot_pdf, plot_pmf and plot_cdf draw. *)

From Coq Require Import ZArith Reals Lra Lia Bool String.
From Verif Require Import Model.Num Model.Py Model.ScipyDist Model.NdArray Model.SliceModel Model.PlotModel Model.Draw.
From Verif Require Import Spec.Densities Spec.Indexing Spec.Plotting Spec.Drawing Spec.Textbook Proofs.Draw Proofs.Textbook.
From Coq Require Import List.
Import ListNotations.
Open Scope R_scope.

(** C62: a plot of a family of [m] distributions draws one curve for every member
    (one curve if all parameters are numbers); curve [j] consists of the points
    (x, y) with x in the grid and y the pdf (pmf, cdf) of member [j] at x, and
    carries the label of [j].  With [conditional] the y of a discrete
    distribution are divided by the sum of all y. *)
Theorem C62_lines :
  forall (release : list nat) (is_float : param R -> bool) (show : R -> string) (f : bool -> frozen R -> R -> R),
  float_test is_float ->
  forall (m : nat) (o : object) (cdf conditional polar : bool) (mark : string) (st : style) (g : list R),
  family m (o_class o) (o_fields o) -> available release (o_class o) -> (cdf = true -> no_cdf (o_class o) = false) ->
  snd (plot o) = Ok g ->
  let k := curves m (o_fields o) in
  exists calls dj, snd (draw release is_float show f o cdf conditional polar mark st) = Ok calls /\
    (forall j, (j < k)%nat -> member_dist release (o_class o) (o_fields o) j = Ok (dj j)) /\
    (label_fits st k -> lines_of calls = Ok (map (fun j => mkLine
        (map (fun x => (x, height (match pc_kind (o_class o) with Discrete => conditional | Continuous => false end) g k
                             (fun x j => f cdf (dj j) x) x j)) g)
        (expected_text st k j)) (seq 0 k))).
Proof. exact draw_lines. Qed.

Ltac fields_ok := repeat (apply Forall2_cons; [cbn [fst snd]; split; [reflexivity|];
  first [eexists; reflexivity | split; [simpl; auto|split; [intros; discriminate|intros; discriminate]]]|]); apply Forall2_nil.
(** three gamma distributions with a common rate *)
Definition three_gammas : list (string * param R) :=
  [("alpha"%string, PArr (mkNd [3%nat] (fun i => INR (hd 0%nat i) + 1))); ("beta"%string, PArr (scalar 2))].
Definition gamma_plot := mkObject (mkClass "Gamma" Continuous NoBounds) three_gammas None (Some (BNum 9)).
Definition never_float : param R -> bool := fun _ => false.
Example C62_case :
  family 3 (o_class gamma_plot) three_gammas /\ available [1; 11; 4]%nat (o_class gamma_plot) /\
  float_test never_float /\ snd (plot gamma_plot) = Ok (linspace 0 9 100) /\ curves 3 three_gammas = 3%nat /\
  (forall j, member_dist [1; 11; 4]%nat (o_class gamma_plot) three_gammas j = Ok (S_gamma_scale (INR j + 1) (1 / 2))) /\
  label_fits (mkStyle (Some (LStr "prior")) None) 3 /\
  expected_text (mkStyle (Some (LStr "prior")) None) 3 1 = Text (Some "prior 2"%string).
Proof.
  split.
  { exists [("alpha"%string, Number); ("beta"%string, Number)]. split; [simpl; tauto|].
    fields_ok. }
  split; [intros H; discriminate|]. split; [intros v H; discriminate|]. split; [reflexivity|]. split; [reflexivity|].
  split; [intros j; reflexivity|]. split; [intros l H; discriminate|reflexivity].
Qed.

Print Assumptions C62_lines.

(** C62: the distribution of member [j] has the textbook density (mass function)
    in the parameters of member [j], by the names of the fields. *)
Theorem C62_density :
  forall (release : list nat) (c : plot_class) (fields : list (string * param R)) (j : nat) (p : values) (b : flags) (d : frozen R),
  parameters fields j p b -> member_dist release c fields j = Ok d ->
  forall (row : density) (x : R), In row continuous_table -> d_class row = pc_name c -> d_valid row p x ->
  pdf d x = d_value row p x.
Proof. intros. eapply member_density; eauto. Qed.

Example C62_case_density : let p := fun name => if String.eqb name "alpha" then 1 + 1 else 2 in
  parameters three_gammas 1 p (fun _ => true) /\
  exists row, In row continuous_table /\ d_class row = "Gamma"%string /\ d_valid row p 3.
Proof.
  split. { intros name v [H|[H|[]]]; injection H as <- <-; reflexivity. }
  eexists. split; [right; left; reflexivity|]. split; [reflexivity|]. simpl. lra.
Qed.

Print Assumptions C62_density.

(** C62 *)
Theorem C62_mass :
  forall (release : list nat) (c : plot_class) (fields : list (string * param R)) (j : nat) (p : values) (b : flags) (d : frozen R),
  parameters fields j p b -> member_dist release c fields j = Ok d ->
  forall (row : mass) (k : nat), In row discrete_table -> m_class row = pc_name c -> m_is row p b k (pmf d (Z.of_nat k)).
Proof. intros. eapply member_mass; eauto. Qed.

Example C62_case_mass : let p := fun name => if String.eqb name "n" then 3 else / 2 in
  let fields := [("n"%string, PArr (scalar 3)); ("p"%string, PList [/ 3; / 2])] in
  parameters fields 1 p (fun _ => true) /\
  member_dist [1; 11; 4]%nat (mkClass "Binomial" Discrete NoBounds) fields 1 = Ok (S_binom 3 (/ 2)).
Proof. split; [|reflexivity]. intros name v [H|[H|[]]]; injection H as <- <-; reflexivity. Qed.

Print Assumptions C62_mass.

(** C62: the tables have a row for every class that can be plotted. *)
Theorem C62_covered :
  forall c, In c plot_classes ->
  match pc_kind c with
  | Continuous => exists row, In row continuous_table /\ d_class row = pc_name c
  | Discrete => exists row, In row discrete_table /\ m_class row = pc_name c
  end.
Proof. exact tables_covered. Qed.

Example C62_case_covered : In (mkClass "Weibull" Continuous NoBounds) plot_classes.
Proof. unfold plot_classes. simpl. tauto. Qed.

Print Assumptions C62_covered.

(** C62: plotting commutes with indexing: with the same bounds, the plot of the
    member named by an integer key is one line, with the points of that member's
    line in the plot of the family. *)
Theorem C62_slice :
  forall (release : list nat) (is_float : param R -> bool) (show : R -> string) (f : bool -> frozen R -> R -> R),
  float_test is_float ->
  forall (m : nat) (o o' : object) (cdf conditional polar : bool) (mark : string) (st st' : style) (g : list R) (k : Z) (i : nat),
  family m (o_class o) (o_fields o) -> available release (o_class o) -> (cdf = true -> no_cdf (o_class o) = false) ->
  names m k i -> (i < curves m (o_fields o))%nat -> label_fits st (curves m (o_fields o)) ->
  o_class o' = o_class o -> o_fields o' = dist_getitem 0 (o_fields o) (KInt k) ->
  snd (plot o) = Ok g -> snd (plot o') = Ok g -> (pc_kind (o_class o) = Discrete -> conditional = false) ->
  exists calls calls' lines line',
    snd (draw release is_float show f o cdf conditional polar mark st) = Ok calls /\ lines_of calls = Ok lines /\
    snd (draw release is_float show f o' cdf conditional polar mark st') = Ok calls' /\ lines_of calls' = Ok [line'] /\
    nth_error (map points lines) i = Some (points line').
Proof. exact draw_slice. Qed.

Example C62_case2 :
  names 3 (-1) 2 /\ (2 < curves 3 three_gammas)%nat /\
  snd (plot (mkObject (mkClass "Gamma" Continuous NoBounds) (dist_getitem 0 three_gammas (KInt (-1))) None (Some (BNum 9))))
  = Ok (linspace 0 9 100).
Proof. repeat split; simpl; auto. Qed.

Print Assumptions C62_slice.

(** C63: a plot of a family either succeeds, or raises for one of three reasons:
    the grid could not be made (C49), scipy is too old for
    BetaNegativeBinomial, or the cdf was asked of a class that has none. *)
Theorem C63_raises :
  forall (release : list nat) (is_float : param R -> bool) (show : R -> string) (f : bool -> frozen R -> R -> R),
  float_test is_float ->
  forall (m : nat) (o : object) (cdf conditional polar : bool) (mark : string) (st : style),
  family m (o_class o) (o_fields o) ->
  match snd (draw release is_float show f o cdf conditional polar mark st) with
  | Ok _ => (exists g, snd (plot o) = Ok g) /\ available release (o_class o) /\ (cdf = true -> no_cdf (o_class o) = false)
  | Raise e => snd (plot o) = Raise e \/
      (e = NotImplementedError "BetaNegativeBinomial.dist requires scipy >= 1.12.0" /\ ~ available release (o_class o)) \/
      (e = AttributeError "cdf" /\ cdf = true /\ no_cdf (o_class o) = true)
  end.
Proof. exact draw_raises. Qed.

Example C63_case : family 3 (o_class gamma_plot) (o_fields gamma_plot) /\ no_cdf (o_class gamma_plot) = false.
Proof. split; [exact (proj1 C62_case)|reflexivity]. Qed.

Print Assumptions C63_raises.

(** C63 fails for the cdf of BetaGeometric and CompoundGamma, which can never be
    drawn, although the classes inherit plot_cdf ... *)
Theorem C63_cdf_refuted :
  forall (release : list nat) (is_float : param R -> bool) (show : R -> string) (f : bool -> frozen R -> R -> R),
  float_test is_float ->
  forall (m : nat) (o : object) (conditional polar : bool) (mark : string) (st : style) (g : list R),
  family m (o_class o) (o_fields o) -> no_cdf (o_class o) = true -> snd (plot o) = Ok g ->
  snd (draw release is_float show f o true conditional polar mark st) = Raise (AttributeError "cdf").
Proof. exact draw_no_cdf. Qed.

Definition beta_geometric_plot := mkObject (mkClass "BetaGeometric" Discrete NoBounds)
  [("alpha"%string, PArr (scalar 2)); ("beta"%string, PArr (scalar 3)); ("one_start"%string, PFlag true)] None (Some (BNum 5)).
Definition compound_gamma_plot := mkObject (mkClass "CompoundGamma" Continuous NoBounds)
  [("alpha"%string, PArr (scalar 2)); ("beta"%string, PArr (scalar 3)); ("lam"%string, PArr (scalar 1))] None (Some (BNum 5)).
Example C63_case2 :
  (In (o_class beta_geometric_plot) plot_classes /\ family 1 (o_class beta_geometric_plot) (o_fields beta_geometric_plot) /\
   no_cdf (o_class beta_geometric_plot) = true /\ snd (plot beta_geometric_plot) = Ok (arange 0 (5 + 1))) /\
  (In (o_class compound_gamma_plot) plot_classes /\ family 1 (o_class compound_gamma_plot) (o_fields compound_gamma_plot) /\
   no_cdf (o_class compound_gamma_plot) = true /\ snd (plot compound_gamma_plot) = Ok (linspace 0 5 100)).
Proof.
  split; (split; [simpl; tauto|]; split; [|split; reflexivity]).
  - exists [("alpha"%string, Number); ("beta"%string, Number); ("one_start"%string, Flag)]. split; [simpl; tauto|].
    fields_ok.
  - exists [("alpha"%string, Number); ("beta"%string, Number); ("lam"%string, Number)]. split; [simpl; tauto|].
    fields_ok.
Qed.

Print Assumptions C63_cdf_refuted.

(** ... for a Python list, which the type NUMERIC does not exclude, in one of four fields ... *)
Theorem C63_list_refuted :
  forall (release : list nat) (is_float : param R -> bool) (show : R -> string) (f : bool -> frozen R -> R -> R)
    (m : nat) (o : object) (cdf conditional polar : bool) (mark : string) (st : style) (g : list R) (name : string) (l : list R),
  any_family m (o_class o) (o_fields o) -> In (name, PList l) (o_fields o) -> In (pc_name (o_class o), name) raising_fields ->
  snd (plot o) = Ok g ->
  exists e, snd (draw release is_float show f o cdf conditional polar mark st) = Raise (TypeError e).
Proof. exact draw_list. Qed.

Definition gamma_list_plot := mkObject (mkClass "Gamma" Continuous NoBounds)
  [("alpha"%string, PArr (scalar 2)); ("beta"%string, PList [1; 3])] None (Some (BNum 5)).
Example C63_case_list :
  any_family 2 (o_class gamma_list_plot) (o_fields gamma_list_plot) /\ In ("beta"%string, PList [1; 3]) (o_fields gamma_list_plot) /\
  In ("Gamma", "beta")%string raising_fields /\ snd (plot gamma_list_plot) = Ok (linspace 0 5 100).
Proof.
  split; [|split; [simpl; tauto|split; [left; reflexivity|reflexivity]]].
  exists [("alpha"%string, Number); ("beta"%string, Number)]. split; [simpl; tauto|].
  repeat (apply Forall2_cons; [cbn [fst snd]; split; [reflexivity|split; [simpl; auto|intros; discriminate]]|]). apply Forall2_nil.
Qed.

Print Assumptions C63_list_refuted.

(** ... and for two-dimensional parameters of 100 rows, which are drawn, but with
    point [i] of every curve taken from the distribution of row [i]: no curve
    belongs to one member.  (Continuous grids have 100 points.) *)
Theorem C63_matrix_refuted :
  forall (release : list nat) (is_float : param R -> bool) (show : R -> string) (f : bool -> frozen R -> R -> R),
  float_test is_float ->
  forall (a : nd R) (l : nat) (lo hi : R) (b : default_bounds) (cdf polar : bool) (mark : string) (st : style),
  nd_shape a = [100%nat; l] -> label_fits st l ->
  let o := mkObject (mkClass "Exponential" Continuous b) [("lam"%string, PArr a)] (Some (BNum lo)) (Some (BNum hi)) in
  exists calls, snd (draw release is_float show f o cdf false polar mark st) = Ok calls /\
    lines_of calls = Ok (map (fun j => mkLine
       (map (fun i => (nth i (linspace lo hi 100) 0, f cdf (S_expon_scale (nd_entry a [i; j])) (nth i (linspace lo hi 100) 0))) (seq 0 100))
       (expected_text st l j)) (seq 0 l)).
Proof. exact draw_matrix. Qed.

Example C63_case3 : let a := mkNd [100; 2]%nat (fun i => INR (hd 0%nat i) + 1) in
  nd_shape a = [100; 2]%nat /\ nd_entry a [0; 0]%nat <> nd_entry a [1; 0]%nat.
Proof. simpl. split; [reflexivity|lra]. Qed.

Print Assumptions C63_matrix_refuted.
