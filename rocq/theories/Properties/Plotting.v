(** C49 - C52: bounds, grids, conditional tables and labels of plots. *)

From Coq Require Import ZArith Reals Lra Lia String Sorted.
From Verif Require Import Model.Num Model.Py Model.NdArray Model.SliceModel Model.DirichletModel Model.PlotModel.
From Verif Require Import Spec.Plotting Proofs.Plot.
From Coq Require Import List.
Import ListNotations.
Open Scope R_scope.

Definition gamma_class := mkClass "Gamma" Continuous NoBounds.
Definition poisson_class := mkClass "Poisson" Discrete NoBounds.
Definition uniform_class := mkClass "Uniform" Continuous (Between "low" "high").
Definition binomial_class := mkClass "Binomial" Discrete (MaxOf "n").

(** C49: after any history of constructions, set_min_value, set_max_value,
    set_bounds, slicings and plots, over any number of objects and names, the
    plot of object [r] uses the last values set on [r], or those it started with,
    or the minimum 0. *)
Theorem C49_last_bounds :
  forall (h : list object) (ops : list operation) (r : nat) (o : object), nth_error h r = Some o ->
  exists h', step (run_history h ops) (Plot r) = (h',
    let lo := match last_set (sets_min r) ops with Some v => BNum v | None =>
                match o_min o with Some b => b | None => BNum 0 end end in
    match (match last_set (sets_max r) ops with Some v => Some (BNum v) | None => o_max o end) with
    | Some hi => match create_x_values (pc_kind (o_class o)) lo hi with Ok g => Grid g | Raise e => Failed e end
    | None => Failed (ValueError "Set the max value before plotting.")
    end).
Proof. exact plot_last_bounds. Qed.

(** two objects; the bounds of the first are set twice, those of the second once *)
Example C49_case :
  let ops := [SetBounds 0 1 9; SetMax 1 3; SetMin 0 2; Plot 0; SetMax 0 5; Plot 1] in
  last_set (sets_min 0) ops = Some 2 /\ last_set (sets_max 0) ops = Some 5 /\
  last_set (sets_min 1) ops = None /\ last_set (sets_max 1) ops = Some 3 /\
  snd (step (run_history [] (New poisson_class [] :: New poisson_class [] :: ops)) (Plot 0)) = Grid (arange 2 (5 + 1)).
Proof. repeat split; reflexivity. Qed.

Print Assumptions C49_last_bounds.

(** C49: never set: ValueError, whatever else happened ... *)
Theorem C49_never_set :
  forall (c : plot_class) (fields : list (string * param R)) (h : list object) (ops : list operation),
  pc_bounds c = NoBounds -> last_set (sets_max (length h)) ops = None ->
  exists h', step (run_history h (New c fields :: ops)) (Plot (length h)) = (h', Failed (ValueError "Set the max value before plotting.")).
Proof. exact plot_never_set. Qed.
Print Assumptions C49_never_set.

(** ... and set: a grid, from 0 if the minimum was never set. *)
Theorem C49_after_set :
  forall (c : plot_class) (fields : list (string * param R)) (h : list object) (ops : list operation) (v : R),
  pc_bounds c = NoBounds -> last_set (sets_max (length h)) ops = Some v ->
  exists h' g, step (run_history h (New c fields :: ops)) (Plot (length h)) = (h', Grid g) /\
    create_x_values (pc_kind c) (BNum (match last_set (sets_min (length h)) ops with Some v => v | None => 0 end)) (BNum v) = Ok g.
Proof. exact plot_after_set. Qed.

Example C49_case2 : let ops := [SetMin 0 (-3); SetMax 1 4; Plot 0] in
  pc_bounds gamma_class = NoBounds /\ last_set (sets_max 0) ops = None /\ last_set (sets_max 1) ops = Some 4 /\
  last_set (sets_min 1) ops = None.
Proof. repeat split; reflexivity. Qed.

Print Assumptions C49_after_set.

(** C49: a class whose constructor sets bounds, with number parameters, can
    always be plotted. *)
Theorem C49_constructed :
  forall (c : plot_class) (fields : list (string * param R)) (o : object) (h : list object) (ops : list operation),
  pc_bounds c <> NoBounds -> Forall number_field fields -> construct c fields = Ok o ->
  exists h' g, step (run_history h (New c fields :: ops)) (Plot (length h)) = (h', Grid g).
Proof. exact plot_constructed. Qed.

Example C49_case3 : let fields := [("n", PArr (scalar 10)); ("p", PArr (scalar (1/2)))]%string in
  In binomial_class plot_classes /\ pc_bounds binomial_class <> NoBounds /\ Forall number_field fields /\
  construct binomial_class fields = Ok (mkObject binomial_class fields None (Some (BNum 10))).
Proof.
  split; [right; left; reflexivity|]. split; [discriminate|]. split; [|reflexivity].
  repeat (apply Forall_cons; [eexists; split; reflexivity|]). apply Forall_nil.
Qed.

Print Assumptions C49_constructed.

(** C49, refuted: the bounds do not survive slicing. *)
Theorem C49_slice_refuted :
  forall (h : list object) (r : nat) (o : object) (k : key) (ops : list operation),
  nth_error h r = Some o -> pc_bounds (o_class o) = NoBounds -> last_set (sets_max (length h)) ops = None ->
  exists h', step (run_history h (Slice r k :: ops)) (Plot (length h)) = (h', Failed (ValueError "Set the max value before plotting.")).
Proof. exact slice_loses_bounds. Qed.

Example C49_slice_case :
  let h := run_history [] [New gamma_class [("alpha", PArr (mkNd [2%nat] (fun _ => 1)))]%string; SetBounds 0 0 5] in
  snd (step h (Plot 0)) = Grid (linspace 0 5 100) /\
  snd (step (run_history h [Slice 0 (KInt 0)]) (Plot 1)) = Failed (ValueError "Set the max value before plotting.").
Proof. split; reflexivity. Qed.

Print Assumptions C49_slice_refuted.

(** C49, refuted: Uniform, whose constructor sets the bounds, cannot be plotted
    when [low] is an array. *)
Theorem C49_uniform_refuted :
  forall (c : plot_class) (lo hi : string) (vl vh : param R) (h : list object),
  pc_bounds c = Between lo hi -> pc_kind c = Continuous ->
  forall fields, get_field fields lo = Ok vl -> get_field fields hi = Ok vh ->
  (forall a, vl = PArr a -> nd_shape a <> []) ->
  exists h', step (run_history h [New c fields]) (Plot (length h)) = (h', Failed (ValueError "x and y can be no greater than 2D")).
Proof. exact uniform_arrays. Qed.

Example C49_uniform_case :
  let low := PArr (mkNd [2%nat] (fun _ => 0)) in let fields := [("low", low); ("high", PArr (scalar 1))]%string in
  In uniform_class plot_classes /\ get_field fields "low" = Ok low /\ (forall a, low = PArr a -> nd_shape a <> []).
Proof.
  split; [repeat (try (left; reflexivity); right)|]. split; [reflexivity|]. intros a H. injection H as <-. discriminate.
Qed.

Print Assumptions C49_uniform_refuted.

(** C49: Dirichlet, one curve for every component of a vector, the first ones
    with the labels given and the rest without a label ... *)
Theorem C49_dirichlet :
  forall (a : nd R) (m : nat) (l : label), nd_shape a = [m] -> (length (label_to_iterable l m) <= m)%nat ->
  exists out, dirichlet_plot (mkDirichlet (OVal (CArr a))) l = Ok out /\ length out = m /\
    forall i, (i < m)%nat -> nth i out (0%nat, None) = (i, nth i (label_to_iterable l m) None).
Proof. exact dirichlet_plot_vector. Qed.
Print Assumptions C49_dirichlet.

(** ... an iterable of more labels than components is an error ... *)
Theorem C49_dirichlet_labels :
  forall (a : nd R) (m : nat) (l : label), nd_shape a = [m] -> (m < length (label_to_iterable l m))%nat ->
  dirichlet_plot (mkDirichlet (OVal (CArr a))) l = Raise (ValueError "`dataset` input should have multiple elements.").
Proof. exact dirichlet_plot_too_many. Qed.
Print Assumptions C49_dirichlet_labels.

Example C49_dirichlet_labels_case :
  let a := mkNd [2%nat] (fun _ => 1) in
  dirichlet_plot (mkDirichlet (OVal (CArr a))) (LIter ["p"]%string) = Ok [(0%nat, Some "p"%string); (1%nat, None)] /\
  (2 < length (label_to_iterable (LIter ["p"; "q"; "r"]%string) 2))%nat.
Proof. split; [reflexivity|]. repeat constructor. Qed.

(** ... refuted: not of the families the class supports, nor of lists. *)
Theorem C49_dirichlet_family_refuted :
  forall (a : nd R) (m n : nat) (l : label), nd_shape a = [m; n] ->
  dirichlet_plot (mkDirichlet (OVal (CArr a))) l = Raise (TypeError "rvs() got an unexpected keyword argument 'random_state'").
Proof. exact dirichlet_plot_matrix. Qed.
Theorem C49_dirichlet_list_refuted :
  forall (v : list R) (l : label), exists msg, dirichlet_plot (mkDirichlet (OVal (CList v))) l = Raise (AttributeError msg).
Proof. exact dirichlet_plot_list. Qed.

Example C49_dirichlet_case :
  let a := mkNd [3%nat] (fun _ => 1) in
  nd_shape a = [3]%nat /\ length (label_to_iterable (LStr "p") 3) = 3%nat /\
  dirichlet_plot (mkDirichlet (OVal (CArr a))) (LStr "p") = Ok [(0%nat, Some "p 1"); (1%nat, Some "p 2"); (2%nat, Some "p 3")]%string.
Proof. repeat split; reflexivity. Qed.

Print Assumptions C49_dirichlet_family_refuted.
Print Assumptions C49_dirichlet_list_refuted.

(** C50: integers [a], [a + 1], ..., [b], each once, in order. *)
Theorem C50_integers :
  forall a b : Z, (a <= b)%Z ->
  create_x_values Discrete (BNum (IZR a)) (BNum (IZR b)) =
    Ok (map (fun i => IZR (a + Z.of_nat i)) (seq 0 (Z.to_nat (b - a + 1)))).
Proof. exact (fun a b H => f_equal Ok (arange_integers a b H)). Qed.

Example C50_case : (-2 <= 3)%Z /\
  map (fun i => IZR (-2 + Z.of_nat i)) (seq 0 (Z.to_nat (3 - -2 + 1))) = [-2; -1; 0; 1; 2; 3].
Proof. split; [lia|reflexivity]. Qed.

Print Assumptions C50_integers.

(** C50, refuted for bounds whose difference is not an integer: a value beyond
    the maximum is plotted. *)
Theorem C50_overshoot_refuted :
  forall lo hi : R, lo <= hi -> (forall k : nat, hi <> lo + INR k) ->
  exists x, In x (arange lo (hi + 1)) /\ hi < x.
Proof. exact arange_overshoots. Qed.

Example C50_overshoot_case : 0 <= 5/2 /\ (forall k : nat, 5/2 <> 0 + INR k).
Proof.
  split; [lra|]. intros k H. rewrite Rplus_0_l, INR_IZR_INZ in H.
  assert (5 = IZR (2 * Z.of_nat k)) by (rewrite mult_IZR; lra). apply eq_IZR in H0. lia.
Qed.

Print Assumptions C50_overshoot_refuted.

(** C50: what the discrete grid is for arbitrary bounds. *)
Theorem C50_grid :
  forall lo hi x : R, lo < hi -> (In x (arange lo hi) <-> exists i : nat, x = lo + INR i /\ x < hi).
Proof. exact arange_in. Qed.
Theorem C50_sorted : forall lo hi : R, StronglySorted Rlt (arange lo hi).
Proof. exact arange_sorted. Qed.
Print Assumptions C50_grid.
Print Assumptions C50_sorted.

(** C50: 100 equally spaced points, both bounds included. *)
Theorem C50_linspace :
  forall lo hi : R, lo <= hi ->
  length (linspace lo hi 100) = 100%nat /\ nth 0 (linspace lo hi 100) 0 = lo /\ nth 99 (linspace lo hi 100) 0 = hi /\
  (forall i, (i < 99)%nat -> nth (S i) (linspace lo hi 100) 0 - nth i (linspace lo hi 100) 0 = (hi - lo) / 99) /\
  Forall (fun x => lo <= x <= hi) (linspace lo hi 100).
Proof. exact linspace_props. Qed.

Example C50_case2 : exists g, create_x_values Continuous (BNum (-1)) (BNum 3) = Ok g /\ g = linspace (-1) 3 100 /\ -1 <= 3.
Proof. eexists. split; [reflexivity|]. split; [reflexivity|lra]. Qed.

Print Assumptions C50_linspace.

(** C50: all grid points get ticks, from a width of 15 on every fifth a major one. *)
Theorem C50_ticks :
  forall (lo hi : R) (x : list R),
  (hi - lo < 15 -> xticks lo hi x = (x, [])) /\
  (15 <= hi - lo -> exists major, xticks lo hi x = (major, x) /\ forall i d, nth i major d = nth (5 * i) x d).
Proof. exact ticks_spec. Qed.
Print Assumptions C50_ticks.

(** C51, one curve: the plotted values sum to 1 (the pmf given the bounds). *)
Theorem C51_conditional_partial :
  forall yy : list (list R), table 1 yy -> table_sum yy <> 0 -> total_of (curve 0 (conditional_values yy)) = 1.
Proof. exact conditional_one. Qed.

Example C51_case : table 1 [[1/2]; [1/4]] /\ table_sum [[1/2]; [1/4]] <> 0 /\
  curve 0 (conditional_values [[1/2]; [1/4]]) = [2/3; 1/3].
Proof.
  split; [repeat constructor|]. unfold conditional_values, table_sum, curve. simpl. split; [lra|].
  repeat (f_equal; try lra).
Qed.

Print Assumptions C51_conditional_partial.

(** C51: several curves: each gets its share of the total ... *)
Theorem C51_share :
  forall (m : nat) (yy : list (list R)) (j : nat), table m yy ->
  total_of (curve j (conditional_values yy)) =
    total_of (curve j yy) / total_of (map (fun j => total_of (curve j yy)) (seq 0 m)).
Proof. exact conditional_share. Qed.

(** ... refuted: with at least two curves no curve sums to 1. *)
Theorem C51_curves_refuted :
  forall (m : nat) (yy : list (list R)) (j : nat), table m yy -> (2 <= m)%nat -> (j < m)%nat ->
  (forall j, (j < m)%nat -> 0 < total_of (curve j yy)) -> total_of (curve j (conditional_values yy)) < 1.
Proof. exact share_lt_one. Qed.

Example C51_curves_case : let yy := [[1/2; 1/3]; [1/4; 1/6]] in
  table 2 yy /\ (forall j, (j < 2)%nat -> 0 < total_of (curve j yy)) /\ total_of (curve 0 (conditional_values yy)) = 3/5.
Proof.
  split; [repeat constructor|]. split.
  - intros [|[|j]] H; [| |lia]; unfold total_of, curve; simpl; lra.
  - unfold total_of, curve, conditional_values, table_sum. simpl. field.
Qed.

Print Assumptions C51_share.
Print Assumptions C51_curves_refuted.

(** C51, refuted: the last value of a conditional cdf, one curve: cdf values
    [f ++ [x]] with some positive value before the last. *)
Theorem C51_cdf_refuted :
  forall (f : list R) (x : R), 0 < x -> (exists y, In y f /\ 0 < y) -> Forall (fun y => 0 <= y) f ->
  let yy := map (fun y => [y]) (f ++ [x]) in
  nth (length f) (curve 0 (conditional_values yy)) 0 < 1.
Proof. exact conditional_cdf_last. Qed.

(** the cdf of a Bernoulli(1/2) variable on 0, 1 *)
Example C51_cdf_case : 0 < 1 /\ (exists y, In y [1/2] /\ 0 < y) /\ Forall (fun y => 0 <= y) [1/2] /\
  nth 1 (curve 0 (conditional_values [[1/2]; [1]])) 0 = 2/3.
Proof.
  split; [lra|]. split; [exists (1/2); split; [left; reflexivity|lra]|]. split; [repeat constructor; lra|].
  unfold curve, conditional_values, table_sum. simpl. field.
Qed.

Print Assumptions C51_cdf_refuted.

(** C52: one curve. *)
Theorem C52_single :
  forall (l : label) (n : nat), resolve_label l [n] = Ok (Single l) /\ resolve_label l [n; 1%nat] = Ok (Single l).
Proof. exact label_single. Qed.
Print Assumptions C52_single.

(** C52: several curves. *)
Theorem C52_each :
  forall (l : label) (n m : nat), m <> 1%nat -> exists ls, resolve_label l [n; m] = Ok (Each ls) /\
  match l with
  | LNone => ls = repeat None m
  | LStr s => length ls = m /\ forall i, (i < m)%nat -> nth i ls None = Some (s ++ " " ++ str_of_nat (i + 1))%string
  | LCallable f => length ls = m /\ forall i, (i < m)%nat -> nth i ls None = Some (f i)
  | LIter l => ls = map Some l
  end.
Proof. exact label_each. Qed.

Example C52_case : resolve_label (LStr "posterior") [100; 3]%nat =
  Ok (Each [Some "posterior 1"; Some "posterior 2"; Some "posterior 3"])%string.
Proof. reflexivity. Qed.

Print Assumptions C52_each.

(** C52: generated labels are different. *)
Theorem C52_distinct : forall n m : nat, str_of_nat n = str_of_nat m -> n = m.
Proof. exact str_of_nat_inj. Qed.
Print Assumptions C52_distinct.

(** C52: the number of curves is the size of the family. *)
Theorem C52_curves_family :
  forall (n : nat) (floats : list bool) (m : nat) (params : list (list nat)),
  In false floats -> Forall (fun s => s = [] \/ s = [m]) params -> In [m] params ->
  yy_shape n floats params = Some [n; m].
Proof. exact curves_of_family. Qed.
Theorem C52_curves_scalars :
  forall (n : nat) (floats : list bool) (params : list (list nat)), Forall (fun s => s = []) params ->
  yy_shape n floats params = Some (if forallb (fun b => b) floats then [n] else [n; 1%nat]).
Proof. exact curves_of_scalars. Qed.

Example C52_case2 : In false [true; false] /\ Forall (fun s => s = [] \/ s = [4%nat]) [[]; [4%nat]] /\
  In [4%nat] [[]; [4%nat]] /\ yy_shape 100 [true; false] [[]; [4%nat]] = Some [100; 4]%nat.
Proof.
  split; [right; left; reflexivity|]. split.
  - apply Forall_cons; [left; reflexivity|]. apply Forall_cons; [right; reflexivity|]. apply Forall_nil.
  - split; [right; left; reflexivity|]. reflexivity.
Qed.

Print Assumptions C52_curves_family.
Print Assumptions C52_curves_scalars.
