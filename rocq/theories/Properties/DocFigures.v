(** C104: the figures of the documentation. *)

From Coq Require Import ZArith Reals Lra Lia Bool Ascii String.
From Verif Require Import Model.Num Model.Py Model.ScipyDist Model.Table Model.NdArray Model.PyNum Model.SliceModel Model.PlotModel Model.Draw Model.Axes Model.DocFigures.
From Verif Require Import Spec.Indexing Spec.Plotting Spec.Drawing Spec.Axes Spec.DocFigures Proofs.DocFigures.
From Coq Require Import List.
Import ListNotations.
Open Scope R_scope.

(** C104: docs/examples/plotting.md, for any bound, labels and distributions: the first figure
    has the density of every distribution from -bound to bound under its own label, the
    second the cdf, and the curves of a figure take the colours of its Axes in turn. *)
Theorem C104_plotting :
  forall (release : list nat) (is_float : param R -> bool) (show : R -> string) (f : bool -> frozen R -> R -> R), float_test is_float ->
  forall (bound : R) (labels : list string) (dists : list object), Forall (one_curve release true) dists ->
  exists densities cdfs ds, plotting_page release is_float show f bound labels dists = (Ok densities, Ok cdfs) /\
    Forall2 (fun o d => member_dist release (o_class o) (o_fields o) 0 = Ok d) dists ds /\
    (forall cdf : bool, lines_of (if cdf then cdfs else densities) =
      Ok (map (fun p => graph (f cdf (snd p)) (- bound) bound (fst p)) (combine labels ds))) /\
    (forall (cdf : bool) (a : axes), ax_cycle a <> [] -> exists a', colours_of a (if cdf then cdfs else densities) =
      Ok (a', map (fun j => round (ax_cycle a) (ax_next a + j)) (seq 0 (Nat.min (List.length labels) (List.length dists))))).
Proof. exact plotting_page_lines. Qed.

(** the three distributions of the page *)
Definition page_dists : list object := [
  mkObject (mkClass "Beta" Continuous MaxOne) [("alpha", PArr (scalar 1)); ("beta", PArr (scalar 1))]%string None (Some (BNum 1));
  mkObject (mkClass "Gamma" Continuous NoBounds) [("alpha", PArr (scalar 1)); ("beta", PArr (scalar 1))]%string None None;
  mkObject (mkClass "Normal" Continuous NoBounds) [("mu", PArr (scalar 0)); ("sigma", PArr (scalar 1))]%string None None].
Example C104_plotting_case : Forall (one_curve [1; 11; 4]%nat true) page_dists /\
  Forall2 (fun o d => member_dist [1; 11; 4]%nat (o_class o) (o_fields o) 0 = Ok d) page_dists [S_beta 1 1; S_gamma_scale 1 (1 / 1); S_norm 0 1].
Proof.
  assert (F : forall c x y, In (pc_name c, [(fst x, Number); (fst y, Number)]) dataclass_fields -> forall u v, x = (fst x, PArr (scalar u)) -> y = (fst y, PArr (scalar v)) ->
    family 1 c [x; y]).
  { intros c [x px] [y py] H u v Hu Hv. cbn [fst snd] in *. injection Hu as ->. injection Hv as ->.
    eexists. split; [exact H|]. repeat (apply Forall2_cons; [cbn [fst snd]; split; [reflexivity|]; split; [now left|split; intros; discriminate]|]). apply Forall2_nil. }
  split.
  - repeat (apply Forall_cons; [split; [reflexivity|]; split;
      [exists 1%nat; split; [eapply F; [simpl; tauto|reflexivity|reflexivity]|reflexivity]|split; [intros H; discriminate|reflexivity]]|]). constructor.
  - repeat constructor.
Qed.

Print Assumptions C104_plotting.

(** C104: docs/examples/vectorized-inputs.md, for any data, any prior parameters (not exactly
    one) and any colours: curve j of the priors and curve j of the posteriors have the
    same colour; the first is the prior j, the second its posterior, under the label for j. *)
Theorem C104_vectorized :
  forall (arctan2 : R -> R -> R) (release : list nat) (is_float : param R -> bool) (show : R -> string) (f : bool -> frozen R -> R -> R), float_test is_float ->
  forall (N x alpha : R) (m : nat) (beta : nd R) (prior_label posterior_label : nat -> string) (colors : list string),
  nd_shape beta = [m] -> m <> 1%nat -> colors <> [] -> (forall s, In s colors -> ~ refers_to_cycle s) ->
  exists calls, vectorized_page arctan2 release is_float show f N x alpha beta prior_label posterior_label colors = Ok calls /\
    lines_of calls = Ok (
      map (fun j => graph (f false (S_beta alpha (nd_entry beta [j]))) 0 1 (prior_label j)) (seq 0 m) ++
      map (fun j => graph (f false (S_beta (alpha + x) (nd_entry beta [j] + (N - x)))) 0 1 (posterior_label j)) (seq 0 m)) /\
    forall a, ax_cycle a <> [] -> exists a', colours_of a calls = Ok (a', map (round colors) (seq 0 m) ++ map (round colors) (seq 0 m)).
Proof. exact vectorized_lines. Qed.

Example C104_vectorized_case : let beta := mkNd [2%nat] (fun i => nth (hd 0%nat i) [1; 10] 0) in
  nd_shape beta = [2%nat] /\ nd_entry beta [1%nat] + (10 - 4) = 16 /\
  map (round ["blue"; "red"]%string) (seq 0 2) = ["blue"; "red"]%string /\ forall s, In s ["blue"; "red"]%string -> ~ refers_to_cycle s.
Proof.
  split; [reflexivity|]. split; [cbn; lra|]. split; [reflexivity|]. intros s [<-|[<-|[]]] (d & _ & E); discriminate.
Qed.

Print Assumptions C104_vectorized.

(** C104: docs/examples/indexing.md, for any parameters and any list of positions (not exactly
    one), negative ones counted from the end: curve j is the prior at the j-th position. *)
Theorem C104_indexing :
  forall (release : list nat) (is_float : param R -> bool) (show : R -> string) (f : bool -> frozen R -> R -> R), float_test is_float ->
  forall (alpha : R) (m : nat) (beta : nd R) (idx : list Z) (l : list nat) (label : nat -> string),
  nd_shape beta = [m] -> Forall2 (names m) idx l -> List.length l <> 1%nat ->
  exists calls, indexing_page release is_float show f alpha beta idx label = Ok calls /\
    lines_of calls = Ok (map (fun j => graph (f false (S_beta alpha (nd_entry beta [nth j l 0%nat]))) 0 1 (label j)) (seq 0 (List.length l))).
Proof. exact indexing_lines. Qed.

Example C104_indexing_case : Forall2 (names 9) [0; 5; -1]%Z [0; 5; 8]%nat.
Proof. repeat constructor; cbn; lia. Qed.

Print Assumptions C104_indexing.

(** C104: docs/examples/binomial.md, left Axes: the posterior given the draw, and the prior. *)
Theorem C104_binomial_left :
  forall (arctan2 : R -> R -> R) (release : list nat) (is_float : param R -> bool) (show : R -> string) (f : bool -> frozen R -> R -> R), float_test is_float ->
  forall (N X : R) (prior : R * R),
  exists calls, binomial_page_left arctan2 release is_float show f N X prior = Ok calls /\
    lines_of calls = Ok [
      graph (f false (S_beta (fst prior + X) (snd prior + (N - X)))) 0 1 "posterior";
      graph (f false (S_beta (fst prior) (snd prior))) 0 1 "prior"].
Proof. exact binomial_left_lines. Qed.

Example C104_binomial_left_case : float_test (fun _ => false).
Proof. intros v H. discriminate. Qed.

Print Assumptions C104_binomial_left.

(** C73 fails on docs/examples/binomial.md: its right Axes cannot be drawn, whatever the number of
    trials and the chance of success, since "C2" refers to the colour cycle. *)
Theorem C73_binomial_page_refuted :
  forall (release : list nat) (is_float : param R -> bool) (show : R -> string) (f : bool -> frozen R -> R -> R), float_test is_float ->
  forall (N p : R) (a : axes),
  exists calls, binomial_page_true release is_float show f N p "C2" = Ok calls /\
  colours_of a calls = Raise (ValueError "Cannot put cycle reference in prop_cycler").
Proof. intros release is_float show f F N p a. apply (binomial_true_raises (fun _ _ => 0) release is_float show f F N p a "2"%char). cbn. lia. Qed.

Print Assumptions C73_binomial_page_refuted.
