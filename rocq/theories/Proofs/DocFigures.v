(** The figures of the documentation. *)

From Coq Require Import ZArith Reals Lra Lia Bool Ascii String.
From Verif Require Import Model.Num Model.Py Model.ScipyDist Model.Table Model.NdArray Model.PyNum Model.SliceModel Model.PlotModel Model.Draw Model.Axes Model.DocFigures.
From Verif Require Import Spec.Indexing Spec.Plotting Spec.Drawing Spec.Axes Spec.DocFigures Proofs.Slice Proofs.Draw Proofs.Axes.
From Coq Require Import List.
Import ListNotations.
Open Scope R_scope.

Lemma lines_of_app a b : lines_of (a ++ b) = let* x := lines_of a in let* y := lines_of b in Ok (x ++ y).
Proof.
  induction a as [|c a IH]; cbn [app lines_of].
  - cbn [bind]. destruct (lines_of b); reflexivity.
  - destruct c; try exact IH. destruct (axes_plot x yy l) as [ls|]; [|reflexivity]. cbn [bind]. rewrite IH.
    destruct (lines_of a) as [la|]; [|reflexivity]. cbn [bind]. destruct (lines_of b) as [lb|]; [|reflexivity]. cbn [bind]. now rewrite app_assoc.
Qed.

Section Figures.
Variable arctan2 : R -> R -> R.
Variable release : list nat.
Variable is_float : param R -> bool.
Variable show : R -> string.
Variable f : bool -> frozen R -> R -> R.
Hypothesis Fl : float_test is_float.

Lemma fst_draw o cdf conditional polar mark st : fst (draw release is_float show f o cdf conditional polar mark st) = fst (plot o).
Proof. unfold draw. destruct (plot o). reflexivity. Qed.

Lemma overlay_lines cdf bound labels : forall dists, List.Forall (one_curve release cdf) dists ->
  exists dists' calls ds, overlay release is_float show f cdf bound labels dists = (dists', Ok calls) /\
    Forall2 (fun o o' => o_class o' = o_class o /\ o_fields o' = o_fields o) dists dists' /\
    Forall2 (fun o d => member_dist release (o_class o) (o_fields o) 0 = Ok d) dists ds /\
    lines_of calls = Ok (map (fun p => mkLine (map (fun x => (x, f cdf (snd p) x)) (linspace (- bound) bound 100)) (Text (Some (fst p)))) (combine labels ds)) /\
    forall a, ax_cycle a <> [] ->
    exists a', colours_of a calls = Ok (a', map (fun j => round (ax_cycle a) (ax_next a + j)) (seq 0 (List.length (combine labels ds)))).
Proof.
  assert (Any : forall dists, List.Forall (one_curve release cdf) dists -> exists ds, Forall2 (fun o d => member_dist release (o_class o) (o_fields o) 0 = Ok d) dists ds).
  { intros dists F. induction F as [|o l Ho F (ds & IH)]; [exists []; constructor|].
    destruct Ho as (K & (m & Fa & C1) & Av & Nc).
    destruct (draw_lines release is_float show f Fl m (set_bounds 0 1 o) cdf false false "o-" (mkStyle None None) (linspace 0 1 100)) as (calls & dj & _ & D & _); auto.
    { unfold plot, set_bounds, set_max_value, set_min_value. cbn [min_value o_min o_max o_class max_value bind create_x_values snd]. now rewrite K. }
    cbn [set_bounds set_max_value set_min_value o_class o_fields] in D. rewrite C1 in D.
    exists (dj 0%nat :: ds). constructor; [apply D; lia|exact IH]. }
  induction labels as [|label labels IH]; intros dists F.
  { destruct (Any dists F) as (ds & D). exists dists, [], ds. split; [reflexivity|]. split; [clear; induction dists; constructor; auto|].
    split; [exact D|]. split; [reflexivity|]. intros a _. exists a. reflexivity. }
  destruct dists as [|o dists].
  { exists [], [], []. split; [reflexivity|]. split; [constructor|]. split; [constructor|]. split; [reflexivity|]. intros a _. exists a. reflexivity. }
  apply List.Forall_cons_iff in F. destruct F as [(K & (m & Fa & C1) & Av & Nc) F]. destruct (IH dists F) as (dists' & rest & ds & E & S & D & L & Col).
  set (o1 := set_bounds (- bound) bound o). set (st := mkStyle (Some (LStr label)) None).
  assert (G : plot o1 = (o1, Ok (linspace (- bound) bound 100))).
  { unfold o1, plot, set_bounds, set_max_value, set_min_value. cbn [min_value o_min o_max o_class max_value bind create_x_values]. now rewrite K. }
  destruct (draw_lines release is_float show f Fl m o1 cdf false false "o-" st (linspace (- bound) bound 100)) as (calls & dj & E1 & D1 & L1); auto.
  { now rewrite G. }
  unfold o1 in D1, L1. cbn [set_bounds set_max_value set_min_value o_class o_fields] in D1, L1. rewrite C1 in D1, L1.
  rewrite K in L1. cbn [height] in L1. unfold height in L1.
  specialize (L1 ltac:(intros l H; discriminate)).
  exists (o1 :: dists'), (calls ++ rest), (dj 0%nat :: ds). split.
  { cbn [overlay]. unfold shown. fold o1. fold st. rewrite (surjective_pairing (draw _ _ _ _ _ _ _ _ _ _)), fst_draw, E1, G. cbn [fst]. rewrite E. reflexivity. }
  split; [constructor; [split; reflexivity|exact S]|]. split; [constructor; [apply D1; lia|exact D]|]. split.
  { rewrite lines_of_app, L1, L. reflexivity. }
  intros a HA. destruct (draw_colours _ _ _ _ _ _ _ _ _ _ _ _ a E1 L1 HA) as (a1 & Q1 & Y1 & N1); [exact Logic.I|]. cbn [st st_color seq map List.length] in Q1, Y1, N1.
  destruct (Col a1) as (a2 & Q2); [congruence|]. exists a2. rewrite colours_app, Q1. cbn [bind]. rewrite Q2. cbn [bind].
  do 2 f_equal. cbn [combine List.length seq map]. rewrite <- seq_shift, map_map. cbn [app]. f_equal. apply map_ext. intros j. rewrite N1. reflexivity.
Qed.

Lemma plotting_page_lines bound labels dists : List.Forall (one_curve release true) dists ->
  exists c1 c2 ds, plotting_page release is_float show f bound labels dists = (Ok c1, Ok c2) /\
    Forall2 (fun o d => member_dist release (o_class o) (o_fields o) 0 = Ok d) dists ds /\
    (forall cdf : bool, lines_of (if cdf then c2 else c1) =
      Ok (map (fun p => mkLine (map (fun x => (x, f cdf (snd p) x)) (linspace (- bound) bound 100)) (Text (Some (fst p)))) (combine labels ds))) /\
    (forall cdf a, ax_cycle a <> [] -> exists a', colours_of a (if cdf : bool then c2 else c1) =
      Ok (a', map (fun j => round (ax_cycle a) (ax_next a + j)) (seq 0 (Nat.min (List.length labels) (List.length dists))))).
Proof.
  intros F. assert (F' : List.Forall (one_curve release false) dists) by (eapply List.Forall_impl; [|exact F]; intros o (A & B & C & D); repeat split; auto; discriminate).
  destruct (overlay_lines false bound labels dists F') as (dists' & c1 & ds & E & S & D & L & Col).
  assert (F2 : List.Forall (one_curve release true) dists').
  { clear - F S. induction S as [|o o' l l' (Sc & Sf) S IH]; [constructor|]. apply List.Forall_cons_iff in F. destruct F as [Ho F].
    constructor; [|now apply IH]. unfold one_curve in *. now rewrite Sc, Sf. }
  destruct (overlay_lines true bound labels dists' F2) as (dists2 & c2 & ds2 & E2 & _ & D2 & L2 & Col2).
  assert (ds2 = ds) as ->.
  { clear - S D D2. revert ds ds2 D D2. induction S as [|o o' l l' (Sc & Sf) S IH]; intros ds ds2 D D2; inversion D; subst; inversion D2; subst; [reflexivity|].
    f_equal; [|now apply IH]. rewrite Sc, Sf in *. congruence. }
  assert (Ln : List.length (combine labels ds) = Nat.min (List.length labels) (List.length dists)).
  { rewrite combine_length. f_equal. clear - D. induction D; [reflexivity|]. cbn [List.length]. now f_equal. }
  rewrite Ln in Col, Col2. exists c1, c2, ds. unfold plotting_page. rewrite E, E2. split; [reflexivity|]. split; [exact D|].
  split; intros [|]; auto.
Qed.

Definition beta_class := mkClass "Beta" Continuous MaxOne.
Lemma beta_family m a b : vector_of m (PArr a) -> vector_of m (PArr b) ->
  family m beta_class [("alpha"%string, PArr a); ("beta"%string, PArr b)].
Proof.
  intros Ha Hb. exists [("alpha"%string, Number); ("beta"%string, Number)]. split; [simpl; tauto|].
  repeat (apply Forall2_cons; [cbn [fst snd]; split; [reflexivity|]; split; [assumption|split; intros; discriminate]|]). apply Forall2_nil.
Qed.

Lemma beta_drawn m a b st : vector_of m (PArr a) -> vector_of m (PArr b) -> nd_shape a = [m] \/ nd_shape b = [m] -> label_fits st m ->
  exists o calls, new_beta a b = Ok o /\ snd (shown release is_float show f o false st) = Ok calls /\
    lines_of calls = Ok (map (fun j => mkLine (map (fun x => (x, f false (S_beta (at_index [j] a) (at_index [j] b)) x)) (linspace 0 1 100)) (expected_text st m j)) (seq 0 m)).
Proof.
  intros Ha Hb V HL. set (fields := [("alpha"%string, PArr a); ("beta"%string, PArr b)]).
  assert (C1 : curves m fields = m).
  { unfold curves, fields. cbn [existsb snd is_vector]. destruct V as [-> | ->]; [reflexivity|]. now rewrite Bool.orb_true_r. }
  exists (mkObject beta_class fields None (Some (BNum 1))).
  destruct (draw_lines release is_float show f Fl m (mkObject beta_class fields None (Some (BNum 1))) false false false "o-" st (linspace 0 1 100))
    as (calls & dj & E & D & L); [now apply beta_family|intros H; discriminate|discriminate|reflexivity|].
  cbn [o_class o_fields] in D, L. rewrite C1 in D, L. exists calls. split; [reflexivity|]. split; [exact E|].
  rewrite (L HL). f_equal. apply map_ext_in. intros j Hj. apply in_seq in Hj. unfold height. cbn [beta_class pc_kind].
  assert (J : dj j = S_beta (at_index [j] a) (at_index [j] b)).
  { assert (G : Ok (dj j) = Ok (S_beta (at_index [j] a) (at_index [j] b))); [|now injection G].
    rewrite <- (D j) by lia. unfold member_dist, beta_class, fields. cbn -[at_index].
    assert (At : forall c : nd R, vector_of m (PArr c) -> match nd_shape c with [] => nd_entry c [] | _ => nd_entry c [j] end = at_index [j] c).
    { intros c [Sc|Sc].
      - unfold at_index. rewrite Sc. reflexivity.
      - rewrite Sc. symmetry. change [j] with ([] ++ [j]). apply (at_last c m); [exact Sc|lia]. }
    rewrite (At a Ha), (At b Hb). reflexivity. }
  now rewrite J.
Qed.

Lemma vectorized_lines N x alpha m beta prior_label posterior_label colors : nd_shape beta = [m] -> m <> 1%nat ->
  colors <> [] -> (forall s, In s colors -> ~ refers_to_cycle s) ->
  exists calls, vectorized_page arctan2 release is_float show f N x alpha beta prior_label posterior_label colors = Ok calls /\
    lines_of calls = Ok (
      map (fun j => mkLine (map (fun t => (t, f false (S_beta alpha (nd_entry beta [j])) t)) (linspace 0 1 100)) (Text (Some (prior_label j)))) (seq 0 m) ++
      map (fun j => mkLine (map (fun t => (t, f false (S_beta (alpha + x) (nd_entry beta [j] + (N - x))) t)) (linspace 0 1 100)) (Text (Some (posterior_label j)))) (seq 0 m)) /\
    forall a, ax_cycle a <> [] -> exists a', colours_of a calls = Ok (a', map (round colors) (seq 0 m) ++ map (round colors) (seq 0 m)).
Proof.
  intros Sb Nm Nc Hc. assert (E1 : Nat.eqb m 1 = false) by now apply Nat.eqb_neq.
  assert (At : forall j (c : nd R), nd_shape c = [m] -> (j < m)%nat -> at_index [j] c = nd_entry c [j]) by (intros j c Sc Hj; change [j] with ([] ++ [j]); now apply (at_last c m)).
  assert (R : run_nd (Ufuncs_R arctan2) F_binomial_beta [scalar N; scalar x; scalar alpha; beta]
    = Ok [scalar (alpha + x); mkNd [m] (fun i => at_index i beta + (N - x))]).
  { unfold run_nd. simpl. unfold map2. rewrite Sb. unfold broadcast_shapes. simpl. reflexivity. }
  destruct (beta_drawn m (scalar alpha) beta (mkStyle (Some (LCallable prior_label)) (Some colors))) as (o1 & c1 & N1 & D1 & L1);
    [now left|now right|now right|intros l H; discriminate|].
  destruct (beta_drawn m (scalar (alpha + x)) (mkNd [m] (fun i => at_index i beta + (N - x))) (mkStyle (Some (LCallable posterior_label)) (Some colors))) as (o2 & c2 & N2 & D2 & L2);
    [now left|now right|now right|intros l H; discriminate|].
  exists (c1 ++ c2). split; [unfold vectorized_page; rewrite N1, R; cbn [bind]; rewrite N2; cbn [bind]; rewrite D1; cbn [bind]; rewrite D2; reflexivity|].
  split.
  - rewrite lines_of_app, L1, L2. cbn [bind]. do 2 f_equal; apply map_ext_in; intros j Hj; apply in_seq in Hj;
      unfold expected_text; cbn [st_label]; rewrite E1; f_equal; apply map_ext; intros t.
    + rewrite (At j beta) by (assumption || lia). reflexivity.
    + rewrite (At j (mkNd [m] _)) by (reflexivity || lia). cbn [nd_entry]. rewrite (At j beta) by (assumption || lia). reflexivity.
  - intros a HA. assert (Nam : named_colours (mkStyle (Some (LCallable prior_label)) (Some colors))) by (split; assumption).
    destruct (draw_colours _ _ _ _ _ _ _ _ _ _ _ _ a D1 L1 HA Nam) as (a1 & Q1 & Y1 & _). cbn [st_color] in Q1, Y1.
    destruct (draw_colours _ _ _ _ _ _ _ _ _ _ _ _ a1 D2 L2) as (a2 & Q2 & _); [congruence|exact Nam|]. cbn [st_color] in Q2.
    exists a2. rewrite colours_app, Q1. cbn [bind]. rewrite Q2. cbn [bind]. rewrite !map_length, !seq_length. reflexivity.
Qed.

Lemma indexing_lines alpha m beta idx l label : nd_shape beta = [m] -> Forall2 (names m) idx l -> List.length l <> 1%nat ->
  exists calls, indexing_page release is_float show f alpha beta idx label = Ok calls /\
    lines_of calls = Ok (map (fun j => mkLine (map (fun t => (t, f false (S_beta alpha (nd_entry beta [nth j l 0%nat])) t)) (linspace 0 1 100))
      (Text (Some (label j)))) (seq 0 (List.length l))).
Proof.
  intros Sb Hn Nl.
  assert (EP : positions m idx = Some l).
  { clear - Hn. induction Hn as [|k i ks is (Hi & Hk) Hn IH]; [reflexivity|]. cbn [positions]. rewrite IH. unfold position. destruct Hk as [-> | ->].
    - now rewrite (proj2 (Z.leb_le 0 (Z.of_nat i))), (proj2 (Z.ltb_lt (Z.of_nat i) (Z.of_nat m))), Nat2Z.id by lia.
    - rewrite (proj2 (Z.leb_gt 0 (Z.of_nat i - Z.of_nat m))) by lia.
      replace (Z.of_nat m + (Z.of_nat i - Z.of_nat m))%Z with (Z.of_nat i) by lia.
      now rewrite (proj2 (Z.leb_le 0 (Z.of_nat i))), Nat2Z.id by lia. }
  set (b := mkNd (List.length l :: []) (fun i => match i with j :: i' => nd_entry beta (nth j l 0%nat :: i') | [] => nd_entry beta [] end)).
  assert (T : take_slice 0 (PArr beta) (KList idx) = PArr b).
  { unfold take_slice. cbn [getitem]. unfold nd_getitem. rewrite Sb. cbn [select]. rewrite EP. reflexivity. }
  destruct (beta_drawn (List.length l) (scalar alpha) b (mkStyle (Some (LCallable label)) None)) as (o & calls & N1 & D1 & L1);
    [now left|now right|now right|intros ? ?; discriminate|].
  exists calls. split.
  - unfold indexing_page. cbn [new_beta construct pc_bounds bind o_class o_fields].
    change (dist_getitem 0 [("alpha"%string, PArr (scalar alpha)); ("beta"%string, PArr beta)] (KList idx)) with
      [("alpha"%string, PArr (scalar alpha)); ("beta"%string, take_slice 0 (PArr beta) (KList idx))].
    rewrite T. cbn [construct pc_bounds bind]. unfold new_beta in N1. injection N1 as <-. exact D1.
  - rewrite L1. f_equal. apply map_ext_in. intros j Hj. apply in_seq in Hj. unfold expected_text. cbn [st_label].
    rewrite (proj2 (Nat.eqb_neq _ _) Nl). f_equal. apply map_ext. intros t. do 3 f_equal.
    change [j] with ([] ++ [j]). rewrite (at_last b (List.length l)) by (reflexivity || lia). reflexivity.
Qed.

Lemma binomial_left_lines N X prior :
  exists calls, binomial_page_left arctan2 release is_float show f N X prior = Ok calls /\
    lines_of calls = Ok [
      mkLine (map (fun t => (t, f false (S_beta (fst prior + X) (snd prior + (N - X))) t)) (linspace 0 1 100)) (Text (Some "posterior"%string));
      mkLine (map (fun t => (t, f false (S_beta (fst prior) (snd prior)) t)) (linspace 0 1 100)) (Text (Some "prior"%string))].
Proof.
  assert (R : exists a b, run_nd (Ufuncs_R arctan2) F_binomial_beta [scalar N; mkNd [1%nat] (fun _ => X); scalar (fst prior); scalar (snd prior)] = Ok [a; b] /\
    nd_shape a = [1%nat] /\ nd_shape b = [1%nat] /\ at_index [0%nat] a = fst prior + X /\ at_index [0%nat] b = snd prior + (N - X)).
  { eexists _, _. split; [unfold run_nd; simpl; reflexivity|]. repeat split. }
  destruct R as (a & b & R & Sa & Sb & Ea & Eb).
  destruct (beta_drawn 1 a b (mkStyle (Some (LStr "posterior")) None)) as (o1 & c1 & N1 & D1 & L1); [now right|now right|now left|intros ? ?; discriminate|].
  destruct (draw_lines release is_float show f Fl 1 (mkObject beta_class [("alpha"%string, PArr (scalar (fst prior))); ("beta"%string, PArr (scalar (snd prior)))] None (Some (BNum 1)))
    false false false "o-" (mkStyle (Some (LStr "prior")) None) (linspace 0 1 100)) as (c2 & dj & D2 & J & L2);
    [apply beta_family; now left|intros H; discriminate|discriminate|reflexivity|].
  exists (c1 ++ c2). split.
  - unfold binomial_page_left. rewrite R. cbn [bind]. rewrite N1. cbn [bind]. cbn [new_beta construct pc_bounds bind]. rewrite D1. cbn [bind].
    unfold shown. fold beta_class. rewrite D2. reflexivity.
  - rewrite lines_of_app, L1, L2 by (intros ? ?; discriminate). rewrite curves_one in J |- *. cbn [bind seq map app height beta_class pc_kind expected_text st_label Nat.eqb].
    rewrite Ea, Eb. cbn [o_class o_fields] in J. specialize (J 0%nat ltac:(lia)).
    cbn [o_class beta_class pc_kind]. unfold height.
    assert (dj 0%nat = S_beta (fst prior) (snd prior)) as ->; [|reflexivity]. cbn in J. now injection J.
Qed.

Lemma binomial_true_raises N p a digit : (48 <= Ascii.nat_of_ascii digit <= 57)%nat ->
  exists calls, binomial_page_true release is_float show f N p (String "C"%char (String digit EmptyString)) = Ok calls /\
  colours_of a calls = Raise (ValueError "Cannot put cycle reference in prop_cycler").
Proof.
  intros Hd. set (o := mkObject (mkClass "Binomial" Discrete (MaxOf "n")) [("n"%string, PArr (scalar N)); ("p"%string, PArr (scalar p))] None (Some (BNum N))).
  destruct (draw_lines release is_float show f Fl 1 o false false false "o-"
    (mkStyle (Some (LStr "true distribution")) (Some [String "C"%char (String digit EmptyString)])) (arange 0 (N + 1))) as (c & dj & D & _).
  { exists [("n"%string, Number); ("p"%string, Number)]. split; [simpl; tauto|].
    repeat (apply Forall2_cons; [cbn [fst snd]; split; [reflexivity|split; [simpl; auto|split; intros; discriminate]]|]). apply Forall2_nil. }
  { intros H; discriminate. } { discriminate. } { reflexivity. }
  exists c. split; [exact D|]. apply (draw_reference _ _ _ _ _ _ _ _ _ _ _ a _ _ D eq_refl (or_introl eq_refl)). now exists digit.
Qed.
End Figures.
