(** C72, C73 *)

From Coq Require Import ZArith Reals Lra Lia Bool Ascii String.
From Verif Require Import Model.Num Model.Py Model.ScipyDist Model.NdArray Model.SliceModel Model.PlotModel Model.Draw Model.Axes.
From Verif Require Import Spec.Indexing Spec.Plotting Spec.Drawing Spec.Axes Proofs.Plot Proofs.Draw.
From Coq Require Import List.
Import ListNotations.
Open Scope R_scope.

Section Calls.
Variable release : list nat.
Variable is_float : param R -> bool.
Variable show : R -> string.
Variable f : bool -> frozen R -> R -> R.

(** the shape of a successful plot *)
Lemma draw_shape o cdf conditional polar mark st calls :
  snd (draw release is_float show f o cdf conditional polar mark st) = Ok calls ->
  exists g x yy l rest, snd (plot o) = Ok g /\
    calls = style_color st ++ PlotCall x yy (match pc_kind (o_class o) with Continuous => None | Discrete => Some mark end) l :: rest /\
    match pc_kind (o_class o) with
    | Continuous => rest = setup_labels polar cdf ++ [SetYlimFromZero]
    | Discrete => exists lo hi, o_min (fst (plot o)) = Some (BNum lo) /\ o_max (fst (plot o)) = Some (BNum hi) /\
        rest = (if Rlt_dec (hi - lo) 15 then [SetXticks g false] else [SetXticks g true; SetXticks (every 5 0 g) false])
          ++ [SetXlabel "Domain"; SetYlabel (y_text Discrete cdf conditional (show lo) (show hi)); SetYlimFromZero]
    end.
Proof.
  intros H. unfold draw in H. destruct (plot o) as [o' [g|e]] eqn:EP; [|discriminate]. cbn [fst snd bind] in *.
  destruct (pc_kind (o_class o)) eqn:EK.
  - unfold continuous_calls in H. destruct (curve_values release is_float f o' cdf g) as [[x yy]|]; [|discriminate]. cbn [bind] in H.
    destruct (style_label st yy) as [l|]; [|discriminate]. cbn [bind] in H. injection H as <-.
    exists g, x, yy, l. eexists. split; [reflexivity|]. split; reflexivity.
  - destruct (o_min o') as [[lo|]|] eqn:Em; try discriminate. destruct (o_max o') as [[hi|]|] eqn:Ex; try discriminate.
    unfold discrete_calls in H. destruct (curve_values release is_float f o' cdf g) as [[x yy]|]; [|discriminate]. cbn [bind] in H.
    destruct (discrete_values show cdf conditional lo hi yy) as [yy' yl] eqn:ED.
    destruct (style_label st yy') as [l|]; [|discriminate]. cbn [bind] in H.
    destruct (xticks lo hi g) as [major minor] eqn:EX. injection H as <-.
    exists g, x, yy', l. eexists. split; [reflexivity|]. split; [reflexivity|]. exists lo, hi. split; [reflexivity|]. split; [reflexivity|].
    assert (yl = y_text Discrete cdf conditional (show lo) (show hi)) as ->.
    { unfold discrete_values in ED. destruct conditional, cdf; injection ED as _ <-; reflexivity. }
    unfold xticks in EX. destruct (Rlt_dec (hi - lo) 15); injection EX as <- <-; reflexivity.
Qed.

Lemma cycles_style st : cycles (style_color st) = match st_color st with None => [] | Some c => [c] end.
Proof. unfold style_color. now destruct (st_color st). Qed.

Lemma draw_axes o cdf conditional polar mark st calls :
  snd (draw release is_float show f o cdf conditional polar mark st) = Ok calls ->
  let k := pc_kind (o_class o) in
  (exists x yy l, plot_calls calls = [PlotCall x yy (match k with Continuous => None | Discrete => Some mark end) l]) /\
  x_texts calls = (if has_texts k polar then ["Domain"%string] else []) /\
  (exists lo hi, (k = Discrete -> o_min (fst (plot o)) = Some (BNum lo) /\ o_max (fst (plot o)) = Some (BNum hi)) /\
     y_texts calls = (if has_texts k polar then [y_text k cdf conditional (show lo) (show hi)] else [])) /\
  last calls (SetXlabel "") = SetYlimFromZero.
Proof.
  intros H. destruct (draw_shape _ _ _ _ _ _ _ H) as (g & x & yy & l & rest & EG & -> & HR). clear H. cbv zeta.
  assert (ES : plot_calls (style_color st) = [] /\ x_texts (style_color st) = [] /\ y_texts (style_color st) = [])
    by (unfold style_color; destruct (st_color st); auto). destruct ES as (E1 & E2 & E3).
  unfold plot_calls, x_texts, y_texts in *. rewrite !flat_map_app, E1, E2, E3. cbn [app].
  assert (EL : forall a r, r <> [] -> last (style_color st ++ a :: r) (SetXlabel "") = last r (SetXlabel "")).
  { intros a r Hr. unfold style_color. destruct (st_color st), r; simpl; congruence. }
  destruct (pc_kind (o_class o)).
  - subst rest. rewrite EL by (destruct (setup_labels polar cdf); discriminate). unfold setup_labels.
    split; [eexists _, _, _; now destruct polar|]. split; [now destruct polar|].
    split; [exists 0, 0; split; [discriminate|now destruct polar, cdf]|now destruct polar].
  - destruct HR as (lo & hi & Em & Ex & ->).
    rewrite EL by (destruct (Rlt_dec (hi - lo) 15); discriminate).
    destruct (Rlt_dec (hi - lo) 15); (split; [eexists _, _, _; reflexivity|]; split; [reflexivity|];
      split; [exists lo, hi; split; [auto|reflexivity]|reflexivity]).
Qed.

Lemma draw_ticks o cdf conditional polar mark st calls g lo hi :
  snd (draw release is_float show f o cdf conditional polar mark st) = Ok calls -> snd (plot o) = Ok g ->
  pc_kind (o_class o) = Discrete -> o_min (fst (plot o)) = Some (BNum lo) -> o_max (fst (plot o)) = Some (BNum hi) ->
  (hi - lo < 15 -> ticks false calls = g /\ ticks true calls = []) /\
  (15 <= hi - lo -> ticks true calls = g /\ forall i d, nth i (ticks false calls) d = nth (5 * i) g d).
Proof.
  intros H EG EK Em Ex. destruct (draw_shape _ _ _ _ _ _ _ H) as (g' & x & yy & l & rest & EG' & -> & HR). clear H.
  rewrite EG in EG'. injection EG' as <-. rewrite EK in *. destruct HR as (lo' & hi' & Em' & Ex' & ->).
  rewrite Em in Em'. rewrite Ex in Ex'. injection Em' as <-. injection Ex' as <-.
  assert (ES : forall b, flat_map (fun c => match c with SetXticks t m => if Bool.eqb m b then [t] else [] | _ => [] end) (style_color st) = [])
    by (intros b; unfold style_color; now destruct (st_color st)).
  unfold ticks. rewrite !flat_map_app, !ES. cbn [app].
  destruct (Rlt_dec (hi - lo) 15) as [L|L]; split; intros G; try lra; cbn; (split; [reflexivity|]); [reflexivity|].
  intros i d. now rewrite every_nth.
Qed.

(** ** Colours *)
Lemma colours_rest a rest : plot_calls rest = [] -> cycles rest = [] -> colours_of a rest = Ok (a, []).
Proof.
  revert a. induction rest as [|c rest IH]; intros a P C; [reflexivity|].
  destruct c; cbn in *; try discriminate; auto.
Qed.

Lemma cycle_reference_iff s : cycle_reference s = true <-> refers_to_cycle s.
Proof.
  unfold cycle_reference, refers_to_cycle. split.
  - intros H. apply existsb_exists in H. destruct H as (x & I & E). apply String.eqb_eq in E. subst x.
    simpl in I. repeat (destruct I as [<-|I]; [eexists; split; [|reflexivity]; cbn; lia|]). contradiction.
  - intros (d & D & ->). apply existsb_exists. exists (String "C"%char (String d EmptyString)). split; [|apply String.eqb_refl].
    destruct d as [[|] [|] [|] [|] [|] [|] [|] [|]]; cbn in D; try lia; simpl; tauto.
Qed.

Lemma set_named c : (forall s, In s c -> ~ refers_to_cycle s) -> set_prop_cycle c = Ok (mkAxes c 0).
Proof.
  intros H. unfold set_prop_cycle. destruct (existsb cycle_reference c) eqn:E; [|reflexivity].
  apply existsb_exists in E. destruct E as (s & I & R). apply cycle_reference_iff in R. now apply H in I.
Qed.

Lemma draw_reference o cdf conditional polar mark st calls a c s :
  snd (draw release is_float show f o cdf conditional polar mark st) = Ok calls -> st_color st = Some c -> In s c -> refers_to_cycle s ->
  colours_of a calls = Raise (ValueError "Cannot put cycle reference in prop_cycler").
Proof.
  intros H Hc I R. destruct (draw_shape _ _ _ _ _ _ _ H) as (g & x & yy & l & rest & EG & -> & HR).
  unfold style_color. rewrite Hc. cbn [app colours_of]. unfold set_prop_cycle.
  replace (existsb cycle_reference c) with true; [reflexivity|]. symmetry. apply existsb_exists. exists s. split; [exact I|]. now apply cycle_reference_iff.
Qed.

Lemma draw_colours_from o cdf conditional polar mark st calls lines a :
  snd (draw release is_float show f o cdf conditional polar mark st) = Ok calls -> lines_of calls = Ok lines -> named_colours st ->
  let b := match st_color st with Some c => mkAxes c 0 | None => a end in
  colours_of a calls = rmap (fun p => (fst p, snd p)) (take_colours b (length lines)).
Proof.
  intros H HL HN. destruct (draw_shape _ _ _ _ _ _ _ H) as (g & x & yy & l & rest & EG & -> & HR). clear H.
  assert (PR : plot_calls rest = [] /\ cycles rest = []).
  { destruct (pc_kind (o_class o)).
    - subst rest. unfold setup_labels. now destruct polar.
    - destruct HR as (lo & hi & _ & _ & ->). now destruct (Rlt_dec (hi - lo) 15). }
  destruct PR as [P C]. rewrite lines_app in HL.
  2:{ unfold style_color. destruct (st_color st); simpl; intuition discriminate. }
  cbn [lines_of] in HL. rewrite (lines_none rest) in HL.
  2:{ intros x' y' m' l' I. assert (K : In (PlotCall x' y' m' l') (plot_calls rest)) by (apply in_flat_map; eexists; split; [exact I|simpl; auto]).
      rewrite P in K. contradiction. }
  destruct (axes_plot x yy l) as [ls|] eqn:EA; [|discriminate]. cbn [bind] in HL. injection HL as <-. rewrite app_nil_r.
  unfold named_colours in HN. unfold style_color. destruct (st_color st); cbn [app colours_of]; try rewrite set_named by apply HN; cbn [bind]; rewrite EA; cbn [bind];
    (destruct (take_colours _ (length ls)) as [[a' c']|]; [|reflexivity]); cbn [bind rmap fst snd];
    rewrite colours_rest by auto; cbn [bind]; now rewrite app_nil_r.
Qed.

Lemma take_round a n : ax_cycle a <> [] -> exists a', take_colours a n = Ok (a', map (fun j => round (ax_cycle a) (ax_next a + j)) (seq 0 n)) /\ ax_cycle a' = ax_cycle a /\
  forall j, round (ax_cycle a') (ax_next a' + j) = round (ax_cycle a) (ax_next a + (n + j)).
Proof.
  intros H. destruct a as [c k]. cbn [ax_cycle ax_next] in *. unfold take_colours. cbn [ax_cycle ax_next].
  destruct n; [exists (mkAxes c k); auto|]. destruct c as [|c0 c]; [contradiction|]. eexists. split; [reflexivity|]. split; [reflexivity|].
  intros j. cbn [ax_cycle ax_next]. unfold round. f_equal. rewrite Nat.add_mod_idemp_l by discriminate. f_equal. lia.
Qed.

Lemma draw_colours o cdf conditional polar mark st calls lines a :
  snd (draw release is_float show f o cdf conditional polar mark st) = Ok calls -> lines_of calls = Ok lines ->
  ax_cycle a <> [] -> named_colours st ->
  let colour j := match st_color st with Some c => round c j | None => round (ax_cycle a) (ax_next a + j) end in
  exists a', colours_of a calls = Ok (a', map colour (seq 0 (length lines))) /\
    ax_cycle a' = match st_color st with Some c => c | None => ax_cycle a end /\
    forall j, round (ax_cycle a') (ax_next a' + j) = colour (length lines + j)%nat.
Proof.
  intros H HL HA HS colour. subst colour. rewrite (draw_colours_from _ _ _ _ _ _ _ _ a H HL HS). cbv zeta. unfold named_colours in HS.
  destruct (st_color st) as [c|].
  - destruct (take_round (mkAxes c 0) (length lines)) as (a' & E & E' & E2); [apply HS|]. rewrite E. exists a'. split; [reflexivity|]. split; [exact E'|exact E2].
  - destruct (take_round a (length lines) HA) as (a' & E & E' & E2). rewrite E. exists a'. split; [reflexivity|]. split; [exact E'|exact E2].
Qed.

Lemma colours_app calls1 : forall a calls2, colours_of a (calls1 ++ calls2)
  = let* (a1, c1) := colours_of a calls1 in let* (a2, c2) := colours_of a1 calls2 in Ok (a2, c1 ++ c2).
Proof.
  induction calls1 as [|c calls1 IH]; intros a calls2; cbn [app colours_of].
  - cbn [bind]. now destruct (colours_of a calls2) as [[a2 c2]|].
  - destruct c; auto; [destruct (set_prop_cycle _); [apply IH|reflexivity]|]. destruct (axes_plot _ _ _) as [ls|]; cbn [bind]; [|reflexivity].
    destruct (take_colours a (length ls)) as [[a1 c1]|]; cbn [bind]; [|reflexivity]. rewrite IH.
    destruct (colours_of a1 calls1) as [[a2 c2]|]; cbn [bind]; [|reflexivity].
    destruct (colours_of a2 calls2) as [[a3 c3]|]; cbn [bind]; [|reflexivity]. now rewrite app_assoc.
Qed.

Lemma draws_colours plots : forall a, ax_cycle a <> [] ->
  List.Forall (fun p : list axes_call * list line => (exists o cdf conditional polar mark st,
     snd (draw release is_float show f o cdf conditional polar mark st) = Ok (fst p) /\ st_color st = None) /\ lines_of (fst p) = Ok (snd p)) plots ->
  exists a', colours_of a (concat (map fst plots))
    = Ok (a', map (fun j => round (ax_cycle a) (ax_next a + j)) (seq 0 (length (concat (map snd plots))))).
Proof.
  induction plots as [|[calls lines] plots IH]; intros a HA HF; [exists a; reflexivity|].
  apply List.Forall_cons_iff in HF. destruct HF as [[(o & cdf & conditional & polar & mark & st & E & S) L] HF]. cbn [fst snd] in *.
  destruct (draw_colours _ _ _ _ _ _ _ _ a E L HA) as (a1 & E1 & C1 & N1); [unfold named_colours; now rewrite S|]. rewrite S in *.
  destruct (IH a1) as (a2 & E2); [congruence|exact HF|]. exists a2. cbn [map concat fst snd]. rewrite colours_app, E1. cbn [bind]. rewrite E2. cbn [bind].
  do 2 f_equal. rewrite app_length, seq_app, map_app. f_equal. rewrite Nat.add_0_l.
  assert (G : forall m n, seq m n = map (fun j => (m + j)%nat) (seq 0 n)).
  { intros m n. rewrite <- (Nat.add_0_r m) at 1. generalize 0%nat. induction n; intros q; simpl; [reflexivity|]. now rewrite <- IHn, Nat.add_succ_r. }
  rewrite (G (length lines)), map_map. apply map_ext. exact N1.
Qed.

Lemma colours_leak o cdf conditional polar mark st calls lines o2 cdf2 conditional2 polar2 mark2 st2 calls2 lines2 a c :
  snd (draw release is_float show f o cdf conditional polar mark st) = Ok calls -> lines_of calls = Ok lines ->
  snd (draw release is_float show f o2 cdf2 conditional2 polar2 mark2 st2) = Ok calls2 -> lines_of calls2 = Ok lines2 ->
  ax_cycle a <> [] -> ~ refers_to_cycle c -> st_color st = Some [c] -> st_color st2 = None ->
  exists a1 l1 a2 l2, colours_of a calls = Ok (a1, l1) /\ colours_of a1 calls2 = Ok (a2, l2) /\ l2 = repeat c (length lines2).
Proof.
  intros H HL H2 HL2 HA HC S1 S2.
  destruct (draw_colours _ _ _ _ _ _ _ _ a H HL HA) as (a1 & E1 & C1 & _); [unfold named_colours; rewrite S1; split; [discriminate|]; intros s [<-|[]]; exact HC|]. rewrite S1 in *.
  destruct (draw_colours _ _ _ _ _ _ _ _ a1 H2 HL2) as (a2 & E2 & C2 & _); [rewrite C1; discriminate|unfold named_colours; now rewrite S2|]. rewrite S2 in *.
  eexists a1, _, a2, _. split; [exact E1|]. split; [exact E2|]. rewrite C1.
  apply (nth_ext _ _ c c); [now rewrite map_length, seq_length, repeat_length|]. intros j Hj. rewrite map_length, seq_length in Hj.
  rewrite nth_repeat. rewrite (nth_indep _ c (round [c] (ax_next a1 + 0))) by now rewrite map_length, seq_length.
  rewrite (map_nth (fun j => round [c] (ax_next a1 + j))). unfold round. rewrite Nat.mod_1_r. reflexivity.
Qed.
End Calls.
