(** Lemmas for drawing. *)

From Coq Require Import ZArith Reals Lra Lia Bool String.
From Verif Require Import Model.Num Model.Py Model.Dists Model.ScipyDist Model.NdArray Model.SliceModel Model.PlotModel Model.Draw.
From Verif Require Import Spec.Indexing Spec.Plotting Spec.Drawing Proofs.Slice Proofs.Plot.
From Coq Require Import List.
Import ListNotations.
Open Scope R_scope.

(** The computation [r] gives one number ([v] false) or a vector of [m], with values [g] *)
Definition stands (m : nat) (r : res (nd R)) (v : bool) (g : nat -> R) : Prop :=
  exists a, r = Ok a /\ nd_shape a = (if v then [m] else []) /\
    forall i j, (v = true -> (j < m)%nat) -> at_index (i ++ [j]) a = g j.

Lemma at_last {A} (a : nd A) m i j : nd_shape a = [m] -> (j < m)%nat -> at_index (i ++ [j]) a = nd_entry a [j].
Proof.
  intros E Hj. unfold at_index. rewrite E, rev_app_distr. simpl. destruct (Nat.eqb_spec m 1); auto. do 2 f_equal. lia.
Qed.

Lemma stands_op m op r s v w g h : stands m r v g -> stands m s w h ->
  stands m (lift2 op r s) (v || w) (fun j => op (g j) (h j)).
Proof.
  intros (a & -> & Ea & Ha) (b & -> & Eb & Hb). unfold lift2, bind, map2. rewrite Ea, Eb.
  assert (B : broadcast_shapes (if v then [m] else []) (if w then [m] else []) = Some (if v || w then [m] else [])).
  { destruct v, w; try reflexivity. unfold broadcast_shapes. simpl. now rewrite Nat.eqb_refl. }
  rewrite B. eexists. split; [reflexivity|]. split; [reflexivity|]. intros i j Hj.
  assert (X : forall i', i' = (if v || w then [j] else []) ->
    op (at_index i' a) (at_index i' b) = op (g j) (h j)).
  { intros i' ->. destruct v; simpl in *.
    - f_equal; [apply (Ha []); auto|apply (Hb []); auto].
    - destruct w.
      + f_equal; [apply (Ha []); auto|apply (Hb []); auto].
      + f_equal; [rewrite <- (Ha [] j) by discriminate; now rewrite !at_index_nil|
                  rewrite <- (Hb [] j) by discriminate; now rewrite !at_index_nil]. }
  destruct (v || w) eqn:E.
  - rewrite (at_last _ m) by (auto; simpl; auto). simpl. now apply X.
  - rewrite at_index_nil by auto. simpl. now apply X.
Qed.

Lemma stands_lit m z : stands m (@nlit _ (NumNd NumR) z) false (fun _ => IZR z).
Proof. exists (scalar (IZR z)). repeat split. Qed.

(** a field of a family *)
Lemma computed_arithmetic c name : In (c, name) computed_fields -> arithmetic c name.
Proof. unfold arithmetic. simpl. intuition. Qed.

Definition value (j : nat) (v : param R) : R := match member 0 j v with Some r => r | None => 0 end.
Lemma stands_field m c fields name v : get_field fields name = Ok v -> vector_of m v -> (forall b, v <> PFlag b) ->
  (forall l, v = PList l -> ~ arithmetic c name) ->
  stands m (array_field c fields name) (is_vector v) (fun j => value j v).
Proof.
  intros G V NF L. unfold array_field. rewrite G. unfold value. cbn [bind]. destruct v as [a|l|b]; [| |now elim (NF b)].
  - simpl in *. exists a. split; [reflexivity|]. destruct V as [E|E]; rewrite E; (split; [reflexivity|]); intros i j Hj.
    + now rewrite at_index_nil.
    + rewrite (at_last a m) by auto. reflexivity.
  - destruct (existsb (fun p => String.eqb (fst p) c && String.eqb (snd p) name) computed_fields) eqn:EX.
    { apply existsb_exists in EX. destruct EX as ([c' n'] & I & E).
      apply andb_prop in E. destruct E as [E1 E2]. apply String.eqb_eq in E1, E2. cbn [fst snd] in *. subst. elim (L l eq_refl). now apply computed_arithmetic. }
    exists (asarray l). split; [reflexivity|]. cbn [vector_of is_vector] in *. split; [unfold asarray; cbn [nd_shape]; now rewrite V|].
    intros i j Hj. rewrite (at_last (asarray l) m) by (auto; unfold asarray; cbn [nd_shape]; now rewrite V). reflexivity.
Qed.

(** The values drawn: what is needed of the frozen distribution *)
Definition stands_dist (m : nat) (d : frozen (res (nd R))) (vec : bool) (dj : nat -> frozen R) : Prop :=
  exists vs, Forall2 (fun r v => exists g, stands m r v g) (frozen_args d) vs /\ existsb (fun b => b) vs = vec /\
  forall i j, (vec = true -> (j < m)%nat) -> frozen_map (entry_at (i ++ [j])) d = dj j.

Lemma entry_stands m r v g i j : stands m r v g -> (v = true -> (j < m)%nat) -> entry_at (i ++ [j]) r = g j.
Proof. intros (a & -> & E & H) Hj. simpl. auto. Qed.


Lemma member_value j v : (forall b, v <> PFlag b) -> member 0 j v = Some (value j v).
Proof. intros H. unfold value. destruct v; simpl; auto. now elim (H b). Qed.

(** reading a parameter: all members at once, or one of them *)
Lemma read_field m c fields name v : get_field fields name = Ok v ->
  vector_of m v /\ (forall b, v <> PFlag b) /\ (forall l, v = PList l -> ~ arithmetic c name) ->
  exists a, array_field c fields name = Ok a /\ stands m (Ok a) (is_vector v) (fun j => value j v) /\
    forall j, member 0 j v = Some (value j v).
Proof.
  intros G (V & NF & L). destruct (stands_field m c fields name v G V NF L) as (a & E & S).
  exists a. split; [exact E|]. split; [exists a; split; [reflexivity|exact S]|].
  intros j. now apply member_value.
Qed.

Lemma rmap_Ok {A B} (g : A -> B) a : rmap g (Ok a) = Ok (g a).
Proof. reflexivity. Qed.

(** arguments that are parameters or computed from parameters *)
Ltac arg :=
  match goal with
  | H : stands ?m ?r _ _ |- stands ?m ?r _ _ => exact H
  | |- stands _ (@nlit _ _ _) _ _ => apply stands_lit
  | |- stands _ (@ndiv _ _ _ _) _ _ => apply (stands_op _ Rdiv); arg
  | |- stands _ (@nmul _ _ _ _) _ _ => apply (stands_op _ Rmult); arg
  | |- stands _ (@npow _ _ _ _) _ _ => apply (stands_op _ (@npow R NumR)); arg
  end.
Ltac entry m := match goal with
  | |- entry_at (?i ++ [?j]) ?r = _ =>
      etransitivity; [eapply (entry_stands m r); [arg|] | reflexivity]
  end.

Lemma object_dist_family release m o : family m (o_class o) (o_fields o) -> available release (o_class o) ->
  exists d, object_dist release o = Ok d /\
    has_cdf d = negb (String.eqb (pc_name (o_class o)) "BetaGeometric" || String.eqb (pc_name (o_class o)) "CompoundGamma") /\
    exists dj, stands_dist m d (existsb (fun p => is_vector (snd p)) (o_fields o)) dj /\
      forall j, (existsb (fun p => is_vector (snd p)) (o_fields o) = true -> (j < m)%nat) ->
        member_dist release (o_class o) (o_fields o) j = Ok (dj j).
Proof.
  destruct o as [[name k b] fields lo hi]. intros (ks & I & F) Av. cbn [o_class o_fields pc_name] in *.
  unfold available in Av. cbn [pc_name] in Av. unfold object_dist, member_dist. cbn [o_class o_fields pc_name].
  unfold dataclass_fields in I. cbn [In] in I.
  repeat (destruct I as [I|I]; [injection I as <- <-|]); try contradiction.
  all: repeat match goal with
    | F : Forall2 _ _ (_ :: _) |- _ => let p := fresh "p" in let H := fresh "H" in let F' := fresh "F" in
        inversion F as [|p ? ? ? H F']; subst; clear F; destruct p as [? ?]; cbn [fst snd] in H; destruct H as [-> H]
    | F : Forall2 _ _ [] |- _ => inversion F; subst; clear F
    end.
  all: repeat match goal with
    | H : exists b, _ = PFlag b |- _ => destruct H as [? ->]
    end.
  all: unfold class_dist; cbn [dist_properties find fst snd String.eqb Ascii.eqb Bool.eqb].
  all: unfold dist1, dist2, dist3.
  all: try (rewrite (Av eq_refl)).
  all: repeat match goal with
    | H : vector_of ?m ?v /\ _ |- context [array_field ?c ?fields ?n] =>
        let a := fresh "a" in let E := fresh "E" in let S := fresh "S" in let M := fresh "M" in
        destruct (read_field m c fields n v eq_refl H) as (a & E & S & M); rewrite E; clear E; clear H; rewrite ?rmap_Ok
    end.
  all: repeat match goal with b : bool |- _ => destruct b end.
  all: cbn [bind flag_field get_field find fst snd String.eqb Ascii.eqb Bool.eqb].
  all: unfold BetaNegativeBinomial_dist; try rewrite (Av eq_refl).
  all: eexists; split; [reflexivity|]; split; [reflexivity|]; eexists.
  all: match goal with |- ?P /\ ?Q => assert (Q0 : Q); [|split; [clear Q0|exact Q0]] end.
  all: try (intros j _; repeat match goal with M : forall j : nat, _ = Some _ |- _ => rewrite M; clear M end; cbn [bind]; reflexivity).
  all: cbv beta delta [Beta_dist Binomial_dist Exponential_dist Gamma_dist NegativeBinomial_dist Hypergeometric_dist Poisson_dist
    BetaBinomial_dist Geometric_dist BetaGeometric_dist Normal_dist Uniform_dist Pareto_dist InverseGamma_dist StudentT_dist Lomax_dist
    CompoundGamma_dist VonMises_dist ScaledInverseChiSquared_dist LogNormal_dist Weibull_dist
    Beta_alpha Beta_beta Binomial_n Binomial_p Exponential_lam Gamma_alpha Gamma_beta NegativeBinomial_n NegativeBinomial_p
    Hypergeometric_N Hypergeometric_k Hypergeometric_n Poisson_lam BetaBinomial_n BetaBinomial_alpha BetaBinomial_beta
    BetaNegativeBinomial_n BetaNegativeBinomial_alpha BetaNegativeBinomial_beta Geometric_p Geometric_one_start
    BetaGeometric_alpha BetaGeometric_beta BetaGeometric_one_start Normal_mu Normal_sigma Uniform_low Uniform_high
    Pareto_x_m Pareto_alpha InverseGamma_alpha InverseGamma_beta StudentT_mu StudentT_sigma StudentT_nu Lomax_alpha Lomax_lam
    CompoundGamma_alpha CompoundGamma_beta CompoundGamma_lam VonMises_mu VonMises_kappa
    ScaledInverseChiSquared_nu ScaledInverseChiSquared_sigma2 LogNormal_mu LogNormal_sigma Weibull_beta Weibull_theta] iota zeta.
  all: unfold stands_dist; cbn [frozen_args frozen_map].
  all: eexists; split; [repeat (apply Forall2_cons; [eexists; arg|]); apply Forall2_nil|].
  all: cbn [existsb snd]; repeat match goal with |- context [is_vector (PFlag ?b)] => change (is_vector (PFlag b)) with false end.
  all: split; [repeat match goal with |- context [is_vector ?p] => destruct (is_vector p) end; reflexivity|].
  all: intros i j Hj; cbv beta.
  all: f_equal; try reflexivity; entry m.
  all: intros HV; apply Hj; revert HV; repeat match goal with |- context [is_vector ?p] => destruct (is_vector p) end; simpl; auto.
Qed.

(** ** The table of values *)
Definition table_is (yy : nd R) (n k : nat) (val : nat -> nat -> R) : Prop :=
  (nd_shape yy = [n] /\ k = 1%nat /\ (forall i, (i < n)%nat -> nd_entry yy [i] = val i 0%nat)) \/
  (nd_shape yy = [n; k] /\ forall i j, (i < n)%nat -> (j < k)%nat -> nd_entry yy [i; j] = val i j).

Lemma grid_table floats g : table_is (grid_array floats g) (length g) 1 (fun i _ => nth i g 0).
Proof.
  unfold table_is, grid_array, reshape_x. simpl. destruct (forallb _ floats); [left|right]; auto.
Qed.
Lemma grid_at floats g i j : (i < length g)%nat -> at_index [i; j] (grid_array floats g) = nth i g 0 \/ forallb (fun b => b) floats = true.
Proof.
  intros Hi. unfold at_index, grid_array, reshape_x. simpl. destruct (forallb _ floats); [now right|left]. simpl.
  f_equal. destruct (Nat.eqb_spec (length g) 1); auto. lia.
Qed.
Lemma grid_at1 floats g i : (i < length g)%nat -> forallb (fun b => b) floats = true -> at_index [i] (grid_array floats g) = nth i g 0.
Proof.
  intros Hi E. unfold at_index, grid_array, reshape_x. rewrite E. simpl. f_equal. destruct (Nat.eqb_spec (length g) 1); auto. lia.
Qed.

Lemma stands_args m l vs : Forall2 (fun r v => exists g, stands m r v g) l vs ->
  exists args, sequence l = Ok args /\ Forall2 (fun a (v : bool) => nd_shape a = if v then [m] else []) args vs.
Proof.
  induction 1 as [|r v l vs (g & a & -> & E & _) _ (args & S & F)].
  - exists []. split; constructor.
  - exists (a :: args). simpl. rewrite S. split; auto.
Qed.

Lemma entry_at_nil i r m g : stands m r false g -> entry_at i r = entry_at [0%nat] r.
Proof. intros (a & -> & E & H). simpl. now rewrite !at_index_nil. Qed.

Lemma frozen_map_ext {A B} (u v : A -> B) (d : frozen A) : Forall (fun a => u a = v a) (frozen_args d) -> frozen_map u d = frozen_map v d.
Proof.
  destruct d; simpl; intros F; repeat match goal with H : Forall _ (_ :: _) |- _ => inversion H; subst; clear H end; f_equal; assumption.
Qed.

Lemma evaluate_family fc m d vec dj g floats :
  stands_dist m d vec dj -> (vec = true -> In false floats) ->
  exists yy, evaluate fc d (length g) floats (grid_array floats g) = Ok yy /\
    table_is yy (length g) (if vec then m else 1%nat) (fun i j => fc (dj j) (nth i g 0)).
Proof.
  intros (vs & F & E & D) Hf. destruct (stands_args _ _ _ F) as (args & S & G). unfold evaluate. rewrite S. cbn [bind].
  destruct vec.
  - rewrite (curves_of_family (length g) floats m).
    + eexists. split; [reflexivity|]. right. cbn [nd_shape nd_entry]. split; [reflexivity|]. intros i j Hi Hj.
      destruct (grid_at floats g i j Hi) as [-> | Hall].
      2:{ rewrite forallb_forall in Hall. specialize (Hall false (Hf eq_refl)). discriminate. }
      f_equal. exact (D [i] j (fun _ => Hj)).
    + auto.
    + clear - G. induction G as [|a v l vs H G IH]; constructor; auto. destruct v; auto.
    + clear - G E. revert E. induction G as [|a v l vs H G IH]; simpl; [discriminate|]. destruct v; simpl; auto.
  - rewrite (curves_of_scalars (length g) floats).
    + eexists. split; [reflexivity|]. destruct (forallb _ floats) eqn:EF; [left|right]; cbn [nd_shape nd_entry].
      * repeat split. intros i Hi. rewrite grid_at1 by auto. f_equal.
        rewrite <- (D [] 0%nat) by discriminate. apply frozen_map_ext.
        clear - F E. revert E. induction F as [|r v l vs (g' & H) F IH]; simpl; [constructor|]. destruct v; [discriminate|].
        simpl. intros E. constructor; auto. now apply (entry_at_nil [i] r m g').
      * split; [reflexivity|]. intros i j Hi Hj. destruct (grid_at floats g i j Hi) as [-> | Hall]; [|congruence].
        f_equal. exact (D [i] j (fun H => False_ind _ (diff_false_true H))).
    + clear - G E. revert E. induction G as [|a v l vs H G IH]; simpl; [constructor|]. destruct v; [discriminate|]. simpl. constructor; auto.
Qed.

(** ** The lines *)
Lemma table_columns yy n k val : table_is yy n k val -> exists e, columns yy = Some (n, k, e) /\
  forall i j, (i < n)%nat -> (j < k)%nat -> e i j = val i j.
Proof.
  intros [(E & -> & H)|(E & H)]; unfold columns; rewrite E; eexists; (split; [reflexivity|]); intros i j Hi Hj; simpl; auto.
  rewrite H by auto. f_equal. lia.
Qed.

Lemma map_const_seq {B} (b : B) (g : nat -> B) n k : (forall j, g j = b) -> repeat b n = map g (seq k n).
Proof. intros H. revert k. induction n as [|n IH]; intros k; simpl; [reflexivity|]. now rewrite H, (IH (S k)). Qed.
Lemma map_rep {A B} (g : A -> B) b n : map g (repeat b n) = repeat (g b) n.
Proof. induction n as [|n IH]; simpl; [reflexivity|]. now rewrite IH. Qed.
Lemma map_nth_error_seq (l : list string) : map (fun s => Text (Some s)) l = map (fun j => Text (nth_error l j)) (seq 0 (length l)).
Proof.
  induction l as [|s l IH]; simpl; [reflexivity|]. f_equal. rewrite IH, <- seq_shift, map_map. reflexivity.
Qed.

Lemma style_labels st yy n k val : table_is yy n k val -> exists l, style_label st yy = Ok l /\
  (label_fits st k -> k <> 0%nat -> line_labels k l = Ok (map (expected_text st k) (seq 0 k))).
Proof.
  intros T. unfold style_label, label_fits. destruct (st_label st) as [lb|] eqn:EL.
  2:{ exists None. split; [reflexivity|]. intros _ _. simpl. f_equal. apply map_const_seq. intros j. unfold expected_text. now rewrite EL. }
  assert (A : resolve_label lb (nd_shape yy) = Ok (if Nat.eqb k 1 then Single lb else Each (label_to_iterable lb k))).
  { destruct T as [(-> & -> & _)|(-> & _)]; simpl; auto. now destruct (Nat.eqb k 1). }
  rewrite A, rmap_Ok. eexists. split; [reflexivity|]. intros Fit NZ. destruct (Nat.eqb_spec k 1) as [->|N1].
  - unfold expected_text. rewrite EL. destruct lb as [|s|l|g]; cbn -[nth_error]; try reflexivity.
    destruct l as [|x [|y l]]; reflexivity.
  - assert (N1' : Nat.eqb k 1 = false) by now apply Nat.eqb_neq.
    unfold expected_text. rewrite EL, N1'. cbn [line_labels]. destruct lb as [|s|l|g]; cbn [label_to_iterable].
    + rewrite repeat_length, Nat.eqb_refl. f_equal. rewrite map_rep. apply map_const_seq. auto.
    + rewrite map_length, seq_length, Nat.eqb_refl. f_equal. rewrite map_map, <- seq_shift, map_map. reflexivity.
    + rewrite map_length. destruct (Fit l eq_refl) as [?|[?|E]]; try contradiction. rewrite E, Nat.eqb_refl. f_equal.
      rewrite map_map, map_nth_error_seq, E. reflexivity.
    + rewrite map_length, seq_length, Nat.eqb_refl. f_equal. now rewrite map_map.
Qed.

Lemma map_nth_seq {B} (g : R -> B) l : map (fun i => g (nth i l 0)) (seq 0 (length l)) = map g l.
Proof.
  induction l as [|a l IH]; simpl; [reflexivity|]. f_equal. rewrite <- IH, <- seq_shift, map_map. reflexivity.
Qed.

Lemma combine_map_seq {B} (h : nat -> B) n : forall k, combine (seq k n) (map h (seq k n)) = map (fun j => (j, h j)) (seq k n).
Proof. induction n as [|n IH]; intros k; simpl; [reflexivity|]. now rewrite IH. Qed.

Lemma axes_plot_points x yy l st g k (val : nat -> nat -> R) :
  table_is x (length g) 1 (fun i _ => nth i g 0) -> table_is yy (length g) k val ->
  (k <> 0%nat -> line_labels k l = Ok (map (expected_text st k) (seq 0 k))) ->
  axes_plot x yy l = Ok (map (fun j => mkLine (map (fun i => (nth i g 0, val i j)) (seq 0 (length g))) (expected_text st k j)) (seq 0 k)).
Proof.
  intros Tx Ty HL. destruct (table_columns _ _ _ _ Tx) as (ex & Ex & Hx). destruct (table_columns _ _ _ _ Ty) as (ey & Ey & Hy).
  unfold axes_plot. rewrite Ex, Ey, Nat.eqb_refl. cbn [negb]. destruct (Nat.eqb_spec k 0) as [->|NZ]; [reflexivity|].
  cbn [orb Nat.eqb negb andb]. rewrite Nat.max_r by lia. rewrite HL by auto. cbn [bind]. f_equal.
  rewrite combine_map_seq, map_map. apply map_ext_in. intros j Hj. apply in_seq in Hj. cbn [fst snd]. f_equal.
  apply map_ext_in. intros i Hi. apply in_seq in Hi.
  rewrite Nat.mod_1_r, (Nat.mod_small j k) by lia. rewrite Hx, Hy by lia. reflexivity.
Qed.
Lemma axes_plot_table x yy l st g k (val : R -> nat -> R) :
  table_is x (length g) 1 (fun i _ => nth i g 0) -> table_is yy (length g) k (fun i j => val (nth i g 0) j) ->
  (k <> 0%nat -> line_labels k l = Ok (map (expected_text st k) (seq 0 k))) ->
  axes_plot x yy l = Ok (map (fun j => mkLine (map (fun t => (t, val t j)) g) (expected_text st k j)) (seq 0 k)).
Proof.
  intros Tx Ty HL. rewrite (axes_plot_points x yy l st g k _ Tx Ty HL). f_equal. apply map_ext. intros j. f_equal.
  exact (map_nth_seq (fun t => (t, val t j)) g).
Qed.

(** ** Drawing *)
Section Draw.
Variable release : list nat.
Variable is_float : param R -> bool.
Variable show : R -> string.
Variable f : bool -> frozen R -> R -> R.
Hypothesis floats_ok : float_test is_float.

Lemma curve_values_family m o cdf g : family m (o_class o) (o_fields o) -> available release (o_class o) ->
  (cdf = true -> no_cdf (o_class o) = false) ->
  exists x yy dj, curve_values release is_float f o cdf g = Ok (x, yy) /\
    table_is x (length g) 1 (fun i _ => nth i g 0) /\
    table_is yy (length g) (curves m (o_fields o)) (fun i j => f cdf (dj j) (nth i g 0)) /\
    forall j, (j < curves m (o_fields o))%nat -> member_dist release (o_class o) (o_fields o) j = Ok (dj j).
Proof.
  intros Fam Av Hc. destruct (object_dist_family release m o Fam Av) as (d & E & C & dj & SD & MD).
  unfold curve_values. rewrite E. cbn [bind]. change (has_cdf d = negb (no_cdf (o_class o))) in C.
  replace (cdf && negb (has_cdf d)) with false.
  2:{ rewrite C, negb_involutive. destruct cdf; [rewrite Hc by auto|]; reflexivity. }
  destruct (evaluate_family (f cdf) m d _ dj g (map (fun p => is_float (snd p)) (o_fields o)) SD) as (yy & Ey & T).
  { intros H. apply existsb_exists in H. destruct H as (p & I & V). apply in_map_iff. exists p. split; auto.
    destruct (is_float (snd p)) eqn:EF; auto. apply floats_ok in EF. destruct EF as (a & E' & Ea).
    rewrite E' in V. simpl in V. rewrite Ea in V. discriminate. }
  rewrite Ey. cbn [bind]. do 3 eexists. split; [reflexivity|]. split; [apply grid_table|]. split; [exact T|].
  intros j Hj. apply MD. intros V. unfold curves in Hj. now rewrite V in Hj.
Qed.

Lemma lines_app a b : (forall x yy mk l, ~ In (PlotCall x yy mk l) a) -> lines_of (a ++ b) = lines_of b.
Proof.
  induction a as [|c a IH]; intros H; [reflexivity|]. cbn [app lines_of].
  assert (IH' : lines_of (a ++ b) = lines_of b) by (apply IH; intros x yy mk l I; exact (H x yy mk l (or_intror I))).
  destruct c; auto. exfalso. eapply H. left. reflexivity.
Qed.
Lemma lines_none a : (forall x yy mk l, ~ In (PlotCall x yy mk l) a) -> lines_of a = Ok [].
Proof. intros H. rewrite <- (app_nil_r a), lines_app; auto. Qed.

Definition total2 (n k : nat) (val : nat -> nat -> R) : R :=
  fold_right Rplus 0 (map (fun i => fold_right Rplus 0 (map (val i) (seq 0 k))) (seq 0 n)).
Lemma sum_app l l' : fold_right Rplus 0 (l ++ l') = fold_right Rplus 0 l + fold_right Rplus 0 l'.
Proof. induction l as [|a l IH]; simpl; [lra|rewrite IH; lra]. Qed.
Lemma total_table yy n k val : table_is yy n k val -> nd_total yy = total2 n k val.
Proof.
  unfold nd_total, total2. intros [(E & -> & H)|(E & H)]; rewrite E; cbn [indices].
  - replace (flat_map (fun k => map (cons k) [[]]) (seq 0 n)) with (map (fun i => [i]) (seq 0 n)).
    2:{ generalize 0%nat. clear. induction n as [|n IH]; intros k; simpl; [reflexivity|]. now rewrite IH. }
    rewrite map_map. f_equal. apply map_ext_in. intros i Hi. apply in_seq in Hi. simpl. rewrite H by lia. lra.
  - replace (flat_map (fun k => map (cons k) [[]]) (seq 0 k)) with (map (fun i => [i]) (seq 0 k)).
    2:{ generalize 0%nat. clear. induction k as [|n IH]; intros k; simpl; [reflexivity|]. now rewrite IH. }
    assert (K : forall s t, (s + t <= n)%nat -> fold_right Rplus 0 (map (nd_entry yy) (flat_map (fun i => map (cons i) (map (fun i => [i]) (seq 0 k))) (seq s t)))
      = fold_right Rplus 0 (map (fun i => fold_right Rplus 0 (map (val i) (seq 0 k))) (seq s t))).
    { intros s t. revert s. induction t as [|t IH]; intros s Hs; [reflexivity|]. cbn [seq flat_map map fold_right].
      rewrite map_app, sum_app, IH by lia. f_equal. rewrite !map_map. f_equal. apply map_ext_in. intros j Hj. apply in_seq in Hj.
      apply H; lia. }
    apply K. lia.
Qed.
Lemma total2_grid g k (y : R -> nat -> R) : total2 (length g) k (fun i j => y (nth i g 0) j)
  = total_of (map (fun x => total_of (map (y x) (seq 0 k))) g).
Proof. unfold total2, total_of. now rewrite <- (map_nth_seq (fun x => fold_right Rplus 0 (map (y x) (seq 0 k)))). Qed.

Ltac noplot := cbn [In app]; let HI := fresh in intros HI; repeat (destruct HI as [HI|HI]; [discriminate|]); exact HI.

Lemma draw_lines m o cdf conditional polar mark st g :
  family m (o_class o) (o_fields o) -> available release (o_class o) -> (cdf = true -> no_cdf (o_class o) = false) ->
  snd (plot o) = Ok g ->
  let k := curves m (o_fields o) in
  exists calls dj, snd (draw release is_float show f o cdf conditional polar mark st) = Ok calls /\
    (forall j, (j < k)%nat -> member_dist release (o_class o) (o_fields o) j = Ok (dj j)) /\
    (label_fits st k -> lines_of calls = Ok (map (fun j => mkLine
        (map (fun x => (x, height (match pc_kind (o_class o) with Discrete => conditional | Continuous => false end) g k
                             (fun x j => f cdf (dj j) x) x j)) g)
        (expected_text st k j)) (seq 0 k))).
Proof.
  intros Fam Av Hc Hg k. unfold draw.
  destruct (plot o) as [o' gr] eqn:EP. simpl in Hg. subst gr. cbn [snd bind].
  assert (EO : o_class o' = o_class o /\ o_fields o' = o_fields o /\ exists lo hi, create_x_values (pc_kind (o_class o)) lo hi = Ok g /\
               o_min o' = Some lo /\ o_max o' = Some hi).
  { unfold plot, min_value, max_value in EP. destruct (o_min o) eqn:Em; injection EP as <- EG; cbn [o_class o_fields o_min o_max] in *.
    - destruct (o_max o) as [hi|] eqn:Ex; [|discriminate]. cbn [bind] in EG. split; auto. split; auto. exists b, hi. auto.
    - destruct (o_max o) as [hi|] eqn:Ex; [|discriminate]. cbn [bind] in EG. split; auto. split; auto. exists (BNum 0), hi. auto. }
  destruct EO as (EC & EF & lo & hi & CG & Elo & Ehi).
  destruct (curve_values_family m o' cdf g) as (x & yy & dj & EV & Tx & Ty & MD); try (rewrite ?EC, ?EF; assumption).
  rewrite EF in Ty, MD. rewrite EC in MD. fold k in Ty, MD.
  destruct (pc_kind (o_class o)) eqn:EK.
  - unfold continuous_calls. rewrite EV. cbn [bind]. destruct (style_labels st yy _ _ _ Ty) as (l & El & HL).
    rewrite El. cbn [bind]. eexists. exists dj. split; [reflexivity|]. split; [exact MD|]. intros Fit.
    rewrite lines_app by (intros; unfold style_color; destruct (st_color st); noplot).
    cbn [app lines_of]. rewrite (axes_plot_table x yy l st g k (fun t j => f cdf (dj j) t) Tx Ty (HL Fit)). cbn [bind].
    rewrite lines_none. 2:{ intros. unfold setup_labels. destruct polar; noplot. }
    cbn [bind]. rewrite app_nil_r. reflexivity.
  - destruct lo as [lo|]; [|discriminate]. destruct hi as [hi|]; [|discriminate]. rewrite Elo, Ehi.
    unfold discrete_calls. rewrite EV. cbn [bind].
    assert (T' : table_is (fst (discrete_values show cdf conditional lo hi yy)) (length g) k
                   (fun i j => height conditional g k (fun x j => f cdf (dj j) x) (nth i g 0) j)).
    { unfold discrete_values, height. destruct conditional; [|exact Ty]. cbn [fst].
      rewrite <- total2_grid, <- (total_table yy _ _ _ Ty).
      destruct Ty as [(E & E1 & H)|(E & H)]; [left|right]; cbn [nd_shape nd_entry].
      - repeat split; auto. intros i Hi. now rewrite H.
      - split; auto. intros i j Hi Hj. now rewrite H. }
    destruct (discrete_values show cdf conditional lo hi yy) as [yy' ylabel]. cbn [fst] in T'.
    destruct (style_labels st yy' _ _ _ T') as (l & El & HL). rewrite El. cbn [bind].
    destruct (xticks lo hi g) as [major minor]. eexists. exists dj. split; [reflexivity|]. split; [exact MD|]. intros Fit.
    rewrite lines_app by (intros; unfold style_color; destruct (st_color st); noplot).
    cbn [app lines_of]. rewrite (axes_plot_table x yy' l st g k (fun t j => height conditional g k (fun x j => f cdf (dj j) x) t j) Tx T' (HL Fit)).
    cbn [bind]. rewrite lines_none. 2:{ intros. destruct (Rlt_dec (hi - lo) 15); noplot. }
    cbn [bind]. rewrite app_nil_r. reflexivity.
Qed.

(** ** Slices *)
Lemma slice_field k i m (p : string * param R) : names m k i -> vector_of m (snd p) ->
  (forall l, take_slice 0 (snd p) (KInt k) <> PList l).
Proof.
  intros Hk V l. apply position_names in Hk. unfold take_slice, getitem. destruct (snd p) as [a|l0|b]; simpl in *.
  - destruct (nd_getitem a (KInt k)); discriminate.
  - rewrite V, Hk. discriminate.
  - discriminate.
Qed.

Lemma family_slice m c fields k i : names m k i -> family m c fields -> family 1 c (dist_getitem 0 fields (KInt k)).
Proof.
  intros Hk (ks & I & F). exists ks. split; auto.
  assert (V : Forall (fun p => vector_of m (snd p)) fields).
  { clear - F. induction F as [|p q l l' [_ H] F IH]; constructor; auto. destruct (snd q); [tauto|]. destruct H as [b ->]. exact Logic.I. }
  pose proof (getitem_int 0 m k i fields Hk V) as G. clear I. revert V G. unfold dist_getitem. induction F as [|p q l l' [En H] F IH]; intros V G; simpl; constructor.
  - inversion V; subst. inversion G; subst. clear IH. destruct H5 as (_ & V1 & Mem & Fl). cbn [fst snd] in *. split; auto.
    destruct (snd q).
    + destruct H as (_ & NF & _). split; [exact V1|]. split.
      * intros b Eb. specialize (Mem 0%nat). rewrite Eb in Mem. rewrite (member_value i (snd p) NF) in Mem. discriminate.
      * intros l0 E0. exfalso. exact (slice_field k i m p Hk H2 l0 E0).
    + destruct H as [b Eb]. exists b. now apply Fl.
  - inversion V; subst. inversion G; subst. apply IH; auto.
Qed.

Lemma curves_one fields : curves 1 fields = 1%nat.
Proof. unfold curves. now destruct (existsb _ fields). Qed.

Lemma member_dist_slice m c fields k i : names m k i -> family m c fields ->
  member_dist release c (dist_getitem 0 fields (KInt k)) 0 = member_dist release c fields i.
Proof.
  intros Hk (ks & I & F).
  assert (V : Forall (fun p => vector_of m (snd p)) fields).
  { clear - F. induction F as [|p q l l' [_ H] F IH]; constructor; auto. destruct (snd q); [tauto|]. destruct H as [b ->]. exact Logic.I. }
  pose proof (getitem_int 0 m k i fields Hk V) as G. unfold member_dist.
  assert (R : forall name, match get_field fields name, get_field (dist_getitem 0 fields (KInt k)) name with
    | Ok v, Ok v' => (forall j, member 0 j v' = member 0 i v) /\ (forall b, v = PFlag b -> v' = PFlag b)
    | Raise e, Raise e' => e = e'
    | _, _ => False end).
  { intros name. unfold get_field. clear - G. induction G as [|p q l l' (E1 & _ & E2 & E3) G IH]; cbn [find]; [reflexivity|].
    rewrite E1. destruct (String.eqb (fst p) name); [split; auto|exact IH]. }
  assert (N : forall name, (let* v := get_field (dist_getitem 0 fields (KInt k)) name in
      match member 0 0 v with Some r => Ok r | None => Raise (TypeError "flag") end)
    = (let* v := get_field fields name in match member 0 i v with Some r => Ok r | None => Raise (TypeError "flag") end)).
  { intros name. specialize (R name). destruct (get_field fields name), (get_field (dist_getitem 0 fields (KInt k)) name); try contradiction; simpl.
    - now rewrite (proj1 R 0%nat).
    - now rewrite R. }
  assert (Fl : forall name, flag_field (dist_getitem 0 fields (KInt k)) name = flag_field fields name).
  { intros name. specialize (R name). unfold flag_field. destruct (get_field fields name) as [v|e], (get_field (dist_getitem 0 fields (KInt k)) name) as [v'|e']; try contradiction; simpl.
    - destruct R as [R1 R2]. destruct v as [a|l|b].
      + specialize (R1 0%nat). destruct v'; try reflexivity. discriminate.
      + specialize (R1 0%nat). destruct v'; try reflexivity. discriminate.
      + now rewrite (R2 b).
    - now rewrite R. }
  unfold class_dist. destruct (find _ _) as [[nm D]|] eqn:EF; [|reflexivity]. apply find_some in EF. destruct EF as [EI _].
  cbn [snd]. unfold dist_properties in EI. cbn [In] in EI.
  repeat (destruct EI as [EI|EI]; [injection EI as <- <-; unfold dist1, dist2, dist3; rewrite ?N, ?Fl; reflexivity|]). contradiction.
Qed.

Lemma draw_slice m o o' cdf conditional polar mark st st' g k i :
  family m (o_class o) (o_fields o) -> available release (o_class o) -> (cdf = true -> no_cdf (o_class o) = false) ->
  names m k i -> (i < curves m (o_fields o))%nat -> label_fits st (curves m (o_fields o)) ->
  o_class o' = o_class o -> o_fields o' = dist_getitem 0 (o_fields o) (KInt k) ->
  snd (plot o) = Ok g -> snd (plot o') = Ok g -> (pc_kind (o_class o) = Discrete -> conditional = false) ->
  exists calls calls' lines line',
    snd (draw release is_float show f o cdf conditional polar mark st) = Ok calls /\ lines_of calls = Ok lines /\
    snd (draw release is_float show f o' cdf conditional polar mark st') = Ok calls' /\ lines_of calls' = Ok [line'] /\
    nth_error (map points lines) i = Some (points line').
Proof.
  intros Fam Av Hc Hk Hi Fit EC EF Hg Hg' Hcond.
  destruct (draw_lines m o cdf conditional polar mark st g Fam Av Hc Hg) as (calls & dj & E & MD & L). specialize (L Fit).
  destruct (draw_lines 1 o' cdf conditional polar mark st' g) as (calls' & dj' & E' & MD' & L').
  { rewrite EC, EF. now apply (family_slice m _ _ k i). }
  { now rewrite EC. } { now rewrite EC. } { exact Hg'. }
  rewrite curves_one in L', MD'. specialize (L' (fun l _ => or_intror (or_introl eq_refl))). cbn [seq map] in L'. do 4 eexists. repeat (split; [eassumption|]).
  assert (NE : nth_error (seq 0 (curves m (o_fields o))) i = Some i).
  { rewrite nth_error_nth' with (d := 0%nat) by now rewrite seq_length. f_equal. rewrite seq_nth; auto. }
  rewrite map_map. cbn [points]. rewrite (map_nth_error _ _ _ NE).
  f_equal. apply map_ext. intros x. f_equal. rewrite EC.
  assert (ED : dj' 0%nat = dj i).
  { specialize (MD' 0%nat Nat.lt_0_1). rewrite EC, EF, (member_dist_slice m _ _ k i Hk Fam), (MD i Hi) in MD'. congruence. }
  unfold height. destruct (pc_kind (o_class o)); [now rewrite ED|]. rewrite (Hcond eq_refl). now rewrite ED.
Qed.

(** ** Exceptions *)
Lemma plot_same o : o_class (fst (plot o)) = o_class o /\ o_fields (fst (plot o)) = o_fields o.
Proof. unfold plot, min_value. destruct (o_min o); auto. Qed.
Lemma plot_bounds o g : snd (plot o) = Ok g -> pc_kind (o_class o) = Discrete ->
  exists lo hi, o_min (fst (plot o)) = Some (BNum lo) /\ o_max (fst (plot o)) = Some (BNum hi).
Proof.
  unfold plot, min_value, max_value. intros H K. rewrite K in H.
  destruct (o_min o) as [[lo|]|] eqn:Em; destruct (o_max o) as [[hi|]|] eqn:Ex; cbn in *; rewrite ?Ex in H; cbn in H; try discriminate; rewrite ?Em, ?Ex; eauto.
Qed.

(** the distribution is not available in an old scipy *)
Lemma object_dist_old m o : family m (o_class o) (o_fields o) -> pc_name (o_class o) = "BetaNegativeBinomial"%string ->
  tuple_lt release [1; 12; 0]%nat = true ->
  object_dist release o = Raise (NotImplementedError "BetaNegativeBinomial.dist requires scipy >= 1.12.0").
Proof.
  destruct o as [[name k b] fields lo hi]. intros (ks & I & F) EN Old. cbn [o_class o_fields pc_name] in *. subst name.
  unfold object_dist. cbn [o_class o_fields pc_name].
  unfold dataclass_fields in I. cbn [In] in I.
  repeat (destruct I as [I|I]; [try discriminate; injection I as <-|]); try contradiction.
  repeat match goal with
    | F : Forall2 _ _ (_ :: _) |- _ => let p := fresh "p" in let H := fresh "H" in let F' := fresh "F" in
        inversion F as [|p ? ? ? H F']; subst; clear F; destruct p as [? ?]; cbn [fst snd] in H; destruct H as [-> H]
    | F : Forall2 _ _ [] |- _ => inversion F; subst; clear F
    end.
  unfold class_dist; cbn [dist_properties find fst snd String.eqb Ascii.eqb Bool.eqb].
  repeat match goal with
    | H : vector_of ?m ?v /\ _ |- context [array_field ?c ?fields ?n] =>
        let a := fresh "a" in let E := fresh "E" in let S := fresh "S" in let M := fresh "M" in
        destruct (read_field m c fields n v eq_refl H) as (a & E & S & M); rewrite E; clear E; clear H; rewrite ?rmap_Ok
    end.
  cbn [bind]. unfold BetaNegativeBinomial_dist. now rewrite Old.
Qed.

Lemma draw_raises m o cdf conditional polar mark st : family m (o_class o) (o_fields o) ->
  match snd (draw release is_float show f o cdf conditional polar mark st) with
  | Ok _ => (exists g, snd (plot o) = Ok g) /\ available release (o_class o) /\ (cdf = true -> no_cdf (o_class o) = false)
  | Raise e => snd (plot o) = Raise e \/
      (e = NotImplementedError "BetaNegativeBinomial.dist requires scipy >= 1.12.0" /\ ~ available release (o_class o)) \/
      (e = AttributeError "cdf" /\ cdf = true /\ no_cdf (o_class o) = true)
  end.
Proof.
  intros Fam. destruct (snd (plot o)) as [g|e] eqn:EG.
  2:{ unfold draw. destruct (plot o) as [o' gr]. simpl in EG. subst gr. cbn. now left. }
  assert (Dec : available release (o_class o) \/ (pc_name (o_class o) = "BetaNegativeBinomial"%string /\ tuple_lt release [1; 12; 0]%nat = true)).
  { unfold available. destruct (string_dec (pc_name (o_class o)) "BetaNegativeBinomial"); [|left; contradiction].
    destruct (tuple_lt release [1; 12; 0]%nat); auto. }
  destruct (plot_same o) as [EC EF].
  assert (Fam' : family m (o_class (fst (plot o))) (o_fields (fst (plot o)))) by now rewrite EC, EF.
  assert (Bad : forall e, curve_values release is_float f (fst (plot o)) cdf g = Raise e ->
    snd (draw release is_float show f o cdf conditional polar mark st) = Raise e).
  { intros e E. unfold draw. pose proof (plot_bounds o g EG) as PB. destruct (plot o) as [o' gr]. cbn [fst snd] in *. subst gr. cbn [bind].
    destruct (pc_kind (o_class o)).
    - unfold continuous_calls. now rewrite E.
    - destruct (PB eq_refl) as (lo & hi & -> & ->). unfold discrete_calls. now rewrite E. }
  destruct Dec as [Av|[EN Old]].
  - destruct (cdf && no_cdf (o_class o)) eqn:Ecdf.
    + rewrite (Bad (AttributeError "cdf")).
      * apply andb_prop in Ecdf. tauto.
      * destruct (object_dist_family release m (fst (plot o)) Fam') as (d & E & C & _); [now rewrite EC|].
        unfold curve_values. rewrite E. cbn [bind]. change (has_cdf d = negb (no_cdf (o_class (fst (plot o))))) in C.
        now rewrite C, negb_involutive, EC, Ecdf.
    + destruct (draw_lines m o cdf conditional polar mark st g Fam Av) as (calls & dj & E & _); auto.
      { intros ->. exact Ecdf. }
      rewrite E. split; [eauto|]. split; auto. intros ->. exact Ecdf.
  - rewrite (Bad (NotImplementedError "BetaNegativeBinomial.dist requires scipy >= 1.12.0")).
    + right. left. split; auto. unfold available. intros H. rewrite (H EN) in Old. discriminate.
    + unfold curve_values. rewrite (object_dist_old m); auto. now rewrite EC.
Qed.

Lemma draw_no_cdf m o conditional polar mark st g : family m (o_class o) (o_fields o) -> no_cdf (o_class o) = true ->
  snd (plot o) = Ok g ->
  snd (draw release is_float show f o true conditional polar mark st) = Raise (AttributeError "cdf").
Proof.
  intros Fam NC EG. pose proof (draw_raises m o true conditional polar mark st Fam) as H.
  destruct (snd (draw release is_float show f o true conditional polar mark st)) as [calls|e].
  - destruct H as (_ & _ & H). rewrite (H eq_refl) in NC. discriminate.
  - destruct H as [H|[[_ H]|[-> _]]]; [congruence| |reflexivity]. exfalso. apply H. intros EN. unfold no_cdf in NC.
    rewrite EN in NC. discriminate.
Qed.

(** ** Matrices of parameters *)
Lemma linspace_length lo hi n : length (linspace lo hi n) = n.
Proof. unfold linspace. now rewrite map_length, seq_length. Qed.

Lemma draw_matrix (a : nd R) l lo hi b cdf polar mark st : nd_shape a = [100%nat; l] -> label_fits st l ->
  let o := mkObject (mkClass "Exponential" Continuous b) [("lam"%string, PArr a)] (Some (BNum lo)) (Some (BNum hi)) in
  exists calls, snd (draw release is_float show f o cdf false polar mark st) = Ok calls /\
    lines_of calls = Ok (map (fun j => mkLine
       (map (fun i => (nth i (linspace lo hi 100) 0, f cdf (S_expon_scale (nd_entry a [i; j])) (nth i (linspace lo hi 100) 0))) (seq 0 100))
       (expected_text st l j)) (seq 0 l)).
Proof.
  intros Sh Fit o. unfold draw, plot, min_value. cbn [o_min o o_class pc_kind max_value o_max bind create_x_values].
  set (g := linspace lo hi 100).
  assert (Lg : length g = 100%nat) by apply linspace_length.
  set (yy := mkNd [100%nat; l] (fun i => f cdf (S_expon_scale (at_index i a)) (at_index i (grid_array [false] g)))).
  assert (EV : curve_values release is_float f o cdf g = Ok (grid_array [false] g, yy)).
  { unfold curve_values. cbn [o o_fields map snd]. replace (is_float (PArr a)) with false.
    2:{ destruct (is_float (PArr a)) eqn:E; auto. apply floats_ok in E. destruct E as (a' & E & E'). injection E as <-. congruence. }
    unfold object_dist. cbn [o o_class pc_name o_fields]. unfold class_dist; cbn [dist_properties find fst snd String.eqb Ascii.eqb Bool.eqb].
    unfold dist1. cbn [array_field get_field find fst snd String.eqb Ascii.eqb Bool.eqb bind rmap].
    cbn [has_cdf Exponential_dist Exponential_lam negb]. rewrite andb_false_r. unfold evaluate. cbn [frozen_args Exponential_dist Exponential_lam sequence bind map].
    unfold yy_shape. cbn [fold_left]. rewrite Sh, Lg. unfold reshape_x. cbn [forallb andb].
    replace (broadcast_shapes [100; 1]%nat [100; l]%nat) with (Some [100; l]%nat).
    2:{ unfold broadcast_shapes. cbn [rev app bc]. change (Nat.eqb 100 100) with true. cbn [option_map].
        destruct (Nat.eqb_spec 1 l) as [<-|]; [reflexivity|]. change (Nat.eqb 1 1) with true. reflexivity. }
    reflexivity. }
  unfold continuous_calls. rewrite EV. cbn [bind].
  assert (T : table_is yy (length g) l (fun i j => f cdf (S_expon_scale (nd_entry a [i; j])) (nth i g 0))).
  { right. rewrite Lg. split; [reflexivity|]. intros i j Hi Hj. unfold yy. cbn [nd_entry].
    destruct (grid_at [false] g i j) as [-> | ?]; [lia| |discriminate]. f_equal. f_equal.
    unfold at_index. rewrite Sh. simpl rev. cbn [proj]. change (Nat.eqb 100 1) with false. cbn [rev app].
    destruct (Nat.eqb_spec l 1); [|reflexivity]. do 3 f_equal. lia. }
  destruct (style_labels st yy _ _ _ T) as (lb & El & HL). rewrite El. cbn [bind]. eexists. split; [reflexivity|].
  rewrite lines_app by (intros; unfold style_color; destruct (st_color st); noplot).
  cbn [app lines_of]. rewrite (axes_plot_points _ yy lb st g l _ (grid_table _ g) T (HL Fit)). cbn [bind].
  rewrite lines_none. 2:{ intros. unfold setup_labels. destruct polar; noplot. }
  cbn [bind]. rewrite app_nil_r, Lg. reflexivity.
Qed.
End Draw.
