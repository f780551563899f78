(** C72, C73: texts, ticks and colours of a plot. *)

From Coq Require Import ZArith Reals Lra Lia Bool Ascii String.
From Verif Require Import Model.Num Model.Py Model.ScipyDist Model.NdArray Model.SliceModel Model.PlotModel Model.Draw Model.Axes.
From Verif Require Import Spec.Indexing Spec.Plotting Spec.Drawing Spec.Axes Proofs.Draw Proofs.Axes.
From Coq Require Import List.
Import ListNotations.
Open Scope R_scope.

(** C72: a plot is one call of [ax.plot], with the mark if the distribution is
    discrete; the axes are labelled by what is drawn (for the conditional plot by
    the bounds in force), except on polar axes; the y axis starts from zero,
    after everything has been drawn. *)
Theorem C72_texts :
  forall (release : list nat) (is_float : param R -> bool) (show : R -> string) (f : bool -> frozen R -> R -> R)
    (o : object) (cdf conditional polar : bool) (mark : string) (st : style) (calls : list axes_call),
  snd (draw release is_float show f o cdf conditional polar mark st) = Ok calls ->
  let k := pc_kind (o_class o) in
  (exists x yy l, plot_calls calls = [PlotCall x yy (match k with Continuous => None | Discrete => Some mark end) l]) /\
  x_texts calls = (if has_texts k polar then ["Domain"%string] else []) /\
  (exists lo hi, (k = Discrete -> o_min (fst (plot o)) = Some (BNum lo) /\ o_max (fst (plot o)) = Some (BNum hi)) /\
     y_texts calls = (if has_texts k polar then [y_text k cdf conditional (show lo) (show hi)] else [])) /\
  last calls (SetXlabel "") = SetYlimFromZero.
Proof. exact draw_axes. Qed.

(** Binomial(n=20, p=[1/2, 1/3]) and Poisson(2) up to 4 *)
Definition binomials := mkObject (mkClass "Binomial" Discrete (MaxOf "n"))
  [("n"%string, PArr (scalar 20)); ("p"%string, PArr (mkNd [2%nat] (fun i => / (INR (hd 0%nat i) + 2))))] None (Some (BNum 20)).
Definition poisson := mkObject (mkClass "Poisson" Discrete NoBounds) [("lam"%string, PArr (scalar 2))] None (Some (BNum 4)).
Definition no_floats : param R -> bool := fun _ => false.
Definition mass_of : bool -> frozen R -> R -> R := fun _ d x => match d with S_binom n p => p | S_poisson m => m | _ => 0 end.
Example C72_case : exists calls,
  snd (draw [1; 11; 4]%nat no_floats (fun _ => "b"%string) mass_of poisson false true false "o-" (mkStyle None (Some ["red"%string]))) = Ok calls /\
  y_texts calls = ["Conditional Probability $f(x|b \leq x \leq b)$"%string].
Proof.
  destruct (draw_lines [1; 11; 4]%nat no_floats (fun _ => "b"%string) mass_of (fun v H => False_ind _ (Bool.diff_false_true H))
    1 poisson false true false "o-" (mkStyle None (Some ["red"%string])) (arange 0 (4 + 1))) as (calls & dj & E & _).
  { exists [("lam"%string, Number)]. split; [simpl; tauto|].
    repeat (apply Forall2_cons; [cbn [fst snd]; split; [reflexivity|split; [simpl; auto|split; intros; discriminate]]|]). apply Forall2_nil. }
  { intros H. discriminate. } { discriminate. } { reflexivity. }
  exists calls. split; [exact E|]. destruct (draw_axes _ _ _ _ _ _ _ _ _ _ _ E) as (_ & _ & (lo & hi & _ & T) & _). exact T.
Qed.

Print Assumptions C72_texts.

(** C72: discrete plots have a tick at every point of the grid; from a width of 15
    on, every fifth is a major one and only these are labelled. *)
Theorem C72_ticks :
  forall (release : list nat) (is_float : param R -> bool) (show : R -> string) (f : bool -> frozen R -> R -> R)
    (o : object) (cdf conditional polar : bool) (mark : string) (st : style) (calls : list axes_call) (g : list R) (lo hi : R),
  snd (draw release is_float show f o cdf conditional polar mark st) = Ok calls -> snd (plot o) = Ok g ->
  pc_kind (o_class o) = Discrete -> o_min (fst (plot o)) = Some (BNum lo) -> o_max (fst (plot o)) = Some (BNum hi) ->
  (hi - lo < 15 -> ticks false calls = g /\ ticks true calls = []) /\
  (15 <= hi - lo -> ticks true calls = g /\ forall i d, nth i (ticks false calls) d = nth (5 * i) g d).
Proof. exact draw_ticks. Qed.

Example C72_case_ticks : exists calls,
  snd (draw [1; 11; 4]%nat no_floats (fun _ => "b"%string) mass_of binomials false false false "o-" (mkStyle None None)) = Ok calls /\
  snd (plot binomials) = Ok (arange 0 (20 + 1)) /\ o_min (fst (plot binomials)) = Some (BNum 0) /\
  o_max (fst (plot binomials)) = Some (BNum 20) /\ 15 <= 20 - 0.
Proof.
  destruct (draw_lines [1; 11; 4]%nat no_floats (fun _ => "b"%string) mass_of (fun v H => False_ind _ (Bool.diff_false_true H))
    2 binomials false false false "o-" (mkStyle None None) (arange 0 (20 + 1))) as (calls & dj & E & _).
  - exists [("n"%string, Number); ("p"%string, Number)]. split; [simpl; tauto|].
    repeat (apply Forall2_cons; [cbn [fst snd]; split; [reflexivity|split; [simpl; auto|split; intros; discriminate]]|]). apply Forall2_nil.
  - intros H. discriminate.
  - discriminate.
  - reflexivity.
  - exists calls. split; [exact E|]. repeat split. lra.
Qed.

Print Assumptions C72_ticks.

(** C73: with [color], curve [j] has the j-th of these colours, starting again
    after the last; without, the colours of the Axes go on where they were.  The next
    curves drawn on the Axes go on from there. *)
Theorem C73_colours :
  forall (release : list nat) (is_float : param R -> bool) (show : R -> string) (f : bool -> frozen R -> R -> R)
    (o : object) (cdf conditional polar : bool) (mark : string) (st : style) (calls : list axes_call) (lines : list line) (a : axes),
  snd (draw release is_float show f o cdf conditional polar mark st) = Ok calls -> lines_of calls = Ok lines ->
  ax_cycle a <> [] -> named_colours st ->
  let colour j := match st_color st with Some c => round c j | None => round (ax_cycle a) (ax_next a + j) end in
  exists a', colours_of a calls = Ok (a', map colour (seq 0 (length lines))) /\
    ax_cycle a' = match st_color st with Some c => c | None => ax_cycle a end /\
    forall j, round (ax_cycle a') (ax_next a' + j) = colour (length lines + j)%nat.
Proof. exact draw_colours. Qed.

Definition red := mkStyle None (Some ["red"%string]).
Example C73_case : exists calls lines calls2 lines2,
  snd (draw [1; 11; 4]%nat no_floats (fun _ => "b"%string) mass_of poisson false false false "o-" red) = Ok calls /\
  lines_of calls = Ok lines /\
  snd (draw [1; 11; 4]%nat no_floats (fun _ => "b"%string) mass_of binomials false false false "o-" (mkStyle None None)) = Ok calls2 /\
  lines_of calls2 = Ok lines2 /\ length lines2 = 2%nat.
Proof.
  destruct (draw_lines [1; 11; 4]%nat no_floats (fun _ => "b"%string) mass_of (fun v H => False_ind _ (Bool.diff_false_true H))
    1 poisson false false false "o-" red (arange 0 (4 + 1))) as (calls & dj & E & _ & L).
  { exists [("lam"%string, Number)]. split; [simpl; tauto|].
    repeat (apply Forall2_cons; [cbn [fst snd]; split; [reflexivity|split; [simpl; auto|split; intros; discriminate]]|]). apply Forall2_nil. }
  { intros H. discriminate. } { discriminate. } { reflexivity. }
  destruct (draw_lines [1; 11; 4]%nat no_floats (fun _ => "b"%string) mass_of (fun v H => False_ind _ (Bool.diff_false_true H))
    2 binomials false false false "o-" (mkStyle None None) (arange 0 (20 + 1))) as (calls2 & dj2 & E2 & _ & L2).
  { exists [("n"%string, Number); ("p"%string, Number)]. split; [simpl; tauto|].
    repeat (apply Forall2_cons; [cbn [fst snd]; split; [reflexivity|split; [simpl; auto|split; intros; discriminate]]|]). apply Forall2_nil. }
  { intros H. discriminate. } { discriminate. } { reflexivity. }
  eexists calls, _, calls2, _. split; [exact E|]. split; [apply L; intros l H; discriminate|]. split; [exact E2|].
  split; [apply L2; intros l H; discriminate|]. now rewrite map_length, seq_length.
Qed.

Print Assumptions C73_colours.

(** C73: any number of plots without [color] on the same Axes share out its colours: curve
    [j] of all of them together has the j-th colour. *)
Theorem C73_overlaid :
  forall (release : list nat) (is_float : param R -> bool) (show : R -> string) (f : bool -> frozen R -> R -> R)
    (plots : list (list axes_call * list line)) (a : axes), ax_cycle a <> [] ->
  List.Forall (fun p => (exists o cdf conditional polar mark st,
     snd (draw release is_float show f o cdf conditional polar mark st) = Ok (fst p) /\ st_color st = None) /\ lines_of (fst p) = Ok (snd p)) plots ->
  exists a', colours_of a (concat (map fst plots))
    = Ok (a', map (fun j => round (ax_cycle a) (ax_next a + j)) (seq 0 (length (concat (map snd plots))))).
Proof. exact draws_colours. Qed.

Example C73_case_overlaid : exists p : list axes_call * list line, (exists o cdf conditional polar mark st,
     snd (draw [1; 11; 4]%nat no_floats (fun _ => "b"%string) mass_of o cdf conditional polar mark st) = Ok (fst p) /\ st_color st = None) /\
     lines_of (fst p) = Ok (snd p) /\ length (concat (map snd [p; p])) = 4%nat.
Proof.
  destruct C73_case as (_ & _ & calls & lines & _ & _ & E & L & N). exists (calls, lines). cbn [fst snd map concat].
  split; [eexists _, _, _, _, _, _; split; [exact E|reflexivity]|]. split; [exact L|]. rewrite app_nil_r, app_length. lia.
Qed.

Print Assumptions C73_overlaid.

(** C73 fails for the plots that follow: a plot without [color] does not get the
    Axes' own colours after a plot with one colour, all its curves have that colour
    and cannot be told apart. *)
Theorem C73_next_plot_refuted :
  forall (release : list nat) (is_float : param R -> bool) (show : R -> string) (f : bool -> frozen R -> R -> R)
    (o : object) (cdf conditional polar : bool) (mark : string) (st : style) (calls : list axes_call) (lines : list line)
    (o2 : object) (cdf2 conditional2 polar2 : bool) (mark2 : string) (st2 : style) (calls2 : list axes_call) (lines2 : list line)
    (a : axes) (c : string),
  snd (draw release is_float show f o cdf conditional polar mark st) = Ok calls -> lines_of calls = Ok lines ->
  snd (draw release is_float show f o2 cdf2 conditional2 polar2 mark2 st2) = Ok calls2 -> lines_of calls2 = Ok lines2 ->
  ax_cycle a <> [] -> ~ refers_to_cycle c -> st_color st = Some [c] -> st_color st2 = None ->
  exists a1 l1 a2 l2, colours_of a calls = Ok (a1, l1) /\ colours_of a1 calls2 = Ok (a2, l2) /\ l2 = repeat c (length lines2).
Proof. exact colours_leak. Qed.

Example C73_case_next : st_color red = Some ["red"%string] /\ ax_cycle (mkAxes ["C0"; "C1"]%string 0) <> [] /\ ~ refers_to_cycle "red" /\ named_colours red.
Proof.
  assert (N : ~ refers_to_cycle "red") by (intros (d & _ & E); discriminate).
  split; [reflexivity|]. split; [discriminate|]. split; [exact N|]. split; [discriminate|]. intros s [<-|[]]. exact N.
Qed.

Print Assumptions C73_next_plot_refuted.

(** C73 fails for colours named by their place in the cycle, as on docs/examples/binomial.md:97
    ([plot_pmf(..., color="C2")]): the plot raises, though matplotlib's own [plot] accepts
    such a colour. *)
Theorem C73_cycle_reference_refuted :
  forall (release : list nat) (is_float : param R -> bool) (show : R -> string) (f : bool -> frozen R -> R -> R)
    (o : object) (cdf conditional polar : bool) (mark : string) (st : style) (calls : list axes_call) (a : axes) (c : list string) (s : string),
  snd (draw release is_float show f o cdf conditional polar mark st) = Ok calls -> st_color st = Some c -> In s c -> refers_to_cycle s ->
  colours_of a calls = Raise (ValueError "Cannot put cycle reference in prop_cycler").
Proof. exact draw_reference. Qed.

Example C73_case_reference : In "C2"%string ["C2"%string] /\ refers_to_cycle "C2".
Proof. split; [now left|]. exists "2"%char. split; [cbn; lia|reflexivity]. Qed.

Print Assumptions C73_cycle_reference_refuted.
