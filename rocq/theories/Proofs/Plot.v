(** Bounds, grids, conditional tables and labels. *)

From Coq Require Import Reals Lra Psatz ZArith Lia String Sorted.
From Coq Require DecimalNat DecimalFacts DecimalString.
From Verif Require Import Model.Num Model.Py Model.NdArray Model.SliceModel Model.DirichletModel Model.PlotModel.
From Verif Require Import Spec.Plotting Spec.Shapes.
From Coq Require Import List.
Import ListNotations.
Open Scope R_scope.

(** ** Bounds *)
Lemma replace_at_len h r o : (r < length h)%nat -> length (replace_at h r o) = length h.
Proof. intros H. unfold replace_at. rewrite app_length, firstn_length. cbn [length]. rewrite skipn_length. lia. Qed.
Lemma replace_at_same h r o : (r < length h)%nat -> nth_error (replace_at h r o) r = Some o.
Proof.
  intros H. unfold replace_at. rewrite nth_error_app2; rewrite firstn_length; [|lia].
  replace (r - Nat.min r (length h))%nat with 0%nat by lia. reflexivity.
Qed.
Lemma replace_at_other h r r' o : (r < length h)%nat -> r <> r' -> nth_error (replace_at h r o) r' = nth_error h r'.
Proof.
  unfold replace_at. revert r r'. induction h as [|a h IH]; intros r r' H N; simpl in H; [lia|].
  destruct r as [|r], r' as [|r']; simpl; try lia; auto. apply IH; lia.
Qed.

(** Object [o'] is [o] up to its bounds, with effective bounds [lo], [hi]. *)
Definition effective_min (o : object) : bound_value := match o_min o with Some b => b | None => BNum 0 end.

Lemma step_object h op r o : nth_error h r = Some o ->
  exists o', nth_error (fst (step h op)) r = Some o' /\ o_class o' = o_class o /\ o_fields o' = o_fields o /\
    effective_min o' = (match sets_min r op with Some v => BNum v | None => effective_min o end) /\
    o_max o' = (match sets_max r op with Some v => Some (BNum v) | None => o_max o end).
Proof.
  intros H. assert (Hr : (r < length h)%nat) by (apply nth_error_Some; congruence).
  assert (U : forall r' f, (forall o, o_class (f o) = o_class o /\ o_fields (f o) = o_fields o) ->
    (forall lo hi, (forall o, effective_min (f o) = match lo with Some v => BNum v | None => effective_min o end) ->
               (forall o, o_max (f o) = match hi with Some v => Some (BNum v) | None => o_max o end) ->
    exists o', nth_error (fst (update_object h r' f)) r = Some o' /\ o_class o' = o_class o /\ o_fields o' = o_fields o /\
    effective_min o' = (match (if Nat.eqb r' r then lo else None) with Some v => BNum v | None => effective_min o end) /\
    o_max o' = (match (if Nat.eqb r' r then hi else None) with Some v => Some (BNum v) | None => o_max o end))).
  { intros r' f Hc lo hi Hlo Hhi. unfold update_object, on_object. destruct (Nat.eqb_spec r' r) as [->|N].
    - rewrite H. simpl. exists (f o). rewrite replace_at_same by auto. destruct (Hc o). rewrite <- Hlo, <- Hhi. auto.
    - destruct (nth_error h r') eqn:E; simpl.
      + exists o. rewrite replace_at_other; auto. apply nth_error_Some. congruence.
      + exists o. auto. }
  assert (A : forall x, nth_error (fst (allocate h x)) r = Some o).
  { intros [x|e]; simpl; auto. rewrite nth_error_app1; auto. }
  destruct op as [c fields|r' v|r' v|r' l u|r' k|r']; simpl.
  - exists o. rewrite A. auto.
  - destruct (U r' (set_min_value v) ltac:(auto) (Some v) None) as (o' & P); auto. exists o'.
    replace (if Nat.eqb r' r then None else None) with (@None R) in P by now destruct (Nat.eqb r' r). exact P.
  - destruct (U r' (set_max_value v) ltac:(auto) None (Some v)) as (o' & P); auto. exists o'.
    replace (if Nat.eqb r' r then None else None) with (@None R) in P by now destruct (Nat.eqb r' r). exact P.
  - exact (U r' (set_bounds l u) ltac:(auto) (Some l) (Some u) ltac:(auto) ltac:(auto)).
  - exists o. split; auto. unfold on_object. destruct (nth_error h r'); [apply A|exact H].
  - unfold on_object. destruct (Nat.eq_dec r' r) as [->|N].
    + rewrite H. unfold plot. destruct (min_value o) as [o' lo] eqn:E. simpl. rewrite replace_at_same by auto.
      exists o'. split; auto. unfold min_value in E. destruct (o_min o) eqn:E2; injection E as <- <-; auto.
      repeat split; auto. unfold effective_min at 2. now rewrite E2.
    + destruct (nth_error h r') eqn:E; [|exists o; auto]. destruct (plot o0) as [o' x]. simpl.
      exists o. rewrite replace_at_other; auto. apply nth_error_Some. congruence.
Qed.

Lemma history_object ops : forall h r o, nth_error h r = Some o ->
  exists o', nth_error (run_history h ops) r = Some o' /\ o_class o' = o_class o /\ o_fields o' = o_fields o /\
    effective_min o' = (match last_set (sets_min r) ops with Some v => BNum v | None => effective_min o end) /\
    o_max o' = (match last_set (sets_max r) ops with Some v => Some (BNum v) | None => o_max o end).
Proof.
  induction ops as [|op ops IH]; intros h r o H; simpl.
  - exists o. auto.
  - destruct (step_object h op r o H) as (o1 & H1 & C1 & F1 & M1 & X1).
    destruct (IH _ _ _ H1) as (o2 & H2 & C2 & F2 & M2 & X2). exists o2. split; auto.
    rewrite C2, F2, M2, X2, M1, X1. repeat split; auto.
    destruct (last_set (sets_min r) ops); auto. destruct (last_set (sets_max r) ops); auto.
Qed.

Lemma plot_eq o : snd (plot o) = bind (max_value o) (fun hi => create_x_values (pc_kind (o_class o)) (effective_min o) hi).
Proof. unfold plot, min_value, effective_min. destruct (o_min o); reflexivity. Qed.

(** C49: plotting uses the last bounds set on the object, or its initial ones *)
Lemma plot_last_bounds h ops r o : nth_error h r = Some o ->
  exists h', step (run_history h ops) (Plot r) = (h',
    let lo := match last_set (sets_min r) ops with Some v => BNum v | None =>
                match o_min o with Some b => b | None => BNum 0 end end in
    match (match last_set (sets_max r) ops with Some v => Some (BNum v) | None => o_max o end) with
    | Some hi => match create_x_values (pc_kind (o_class o)) lo hi with Ok g => Grid g | Raise e => Failed e end
    | None => Failed (ValueError "Set the max value before plotting.")
    end).
Proof.
  intros H. destruct (history_object ops h r o H) as (o' & H' & C & _ & M & X).
  simpl. unfold on_object. rewrite H'. pose proof (plot_eq o') as P. destruct (plot o') as [o'' x]. simpl in P. subst x.
  eexists. f_equal. unfold max_value. rewrite X, C, M. destruct (last_set (sets_max r) ops); simpl; auto. now destruct (o_max o).
Qed.

(** a new object has the bounds of its class *)
Lemma new_object h c fields o : construct c fields = Ok o ->
  exists h', step h (New c fields) = (h', Ref (length h)) /\ nth_error h' (length h) = Some o /\ firstn (length h) h' = h.
Proof.
  intros E. simpl. rewrite E. simpl. eexists. split; [reflexivity|]. rewrite nth_error_app2, Nat.sub_diag by lia.
  split; auto. rewrite firstn_app, Nat.sub_diag, firstn_all. simpl. apply app_nil_r.
Qed.

(** ... and so has a slice, whatever was set on the original *)
Lemma slice_object h r k o : nth_error h r = Some o ->
  step h (Slice r k) = step h (New (o_class o) (dist_getitem 0 (o_fields o) k)).
Proof. intros H. simpl. unfold on_object. now rewrite H. Qed.

Lemma construct_nobounds c fields : pc_bounds c = NoBounds -> construct c fields = Ok (mkObject c fields None None).
Proof. intros E. unfold construct. now rewrite E. Qed.

(** never set: ValueError *)
Lemma plot_never_set c fields h ops : pc_bounds c = NoBounds ->
  last_set (sets_max (length h)) ops = None ->
  exists h', step (run_history h (New c fields :: ops)) (Plot (length h)) = (h', Failed (ValueError "Set the max value before plotting.")).
Proof.
  intros E L. destruct (new_object h c fields _ (construct_nobounds c fields E)) as (h1 & S & N & _).
  destruct (plot_last_bounds h1 ops (length h) _ N) as (h' & P). exists h'. simpl in *. rewrite S in *. simpl in *.
  rewrite P. now rewrite L.
Qed.

(** set at least once, on an object without bounds of its own: a grid *)
Lemma plot_after_set c fields h ops v : pc_bounds c = NoBounds ->
  last_set (sets_max (length h)) ops = Some v ->
  exists h' g, step (run_history h (New c fields :: ops)) (Plot (length h)) = (h', Grid g) /\
    create_x_values (pc_kind c) (BNum (match last_set (sets_min (length h)) ops with Some v => v | None => 0 end)) (BNum v) = Ok g.
Proof.
  intros E L. destruct (new_object h c fields _ (construct_nobounds c fields E)) as (h1 & S & N & _).
  destruct (plot_last_bounds h1 ops (length h) _ N) as (h' & P). exists h'. simpl in *. rewrite S in *. simpl in *.
  rewrite P, L. eexists. split; [|reflexivity]. destruct (last_set (sets_min (length h)) ops); reflexivity.
Qed.

(** ** Grids *)
Lemma ceiling_spec r z : ceiling r = z <-> IZR z - 1 < r <= IZR z.
Proof.
  unfold ceiling. assert (B := base_Int_part (- r)). destruct B as [B1 B2]. split.
  - intros <-. rewrite opp_IZR. lra.
  - intros [H1 H2]. assert (E : (Int_part (- r) = - z)%Z); [|lia].
    assert (L1 : IZR (Int_part (- r)) < IZR (- z + 1)) by (rewrite plus_IZR, opp_IZR; lra).
    assert (L2 : IZR (- z - 1) < IZR (Int_part (- r))) by (rewrite minus_IZR, opp_IZR; lra).
    apply lt_IZR in L1. apply lt_IZR in L2. lia.
Qed.

Lemma arange_in lo hi x : lo < hi -> (In x (arange lo hi) <-> exists i : nat, x = lo + INR i /\ x < hi).
Proof.
  intros H. unfold arange. set (z := ceiling (hi - lo)).
  assert (Z := proj1 (ceiling_spec (hi - lo) z) eq_refl). destruct Z as [Z1 Z2].
  assert (Hz : (0 < z)%Z) by (apply lt_IZR; lra).
  assert (Ez : INR (Z.to_nat z) = IZR z) by (rewrite INR_IZR_INZ, Z2Nat.id by lia; auto).
  rewrite in_map_iff. split.
  - intros (i & <- & Hi). apply in_seq in Hi. exists i. split; auto.
    assert (INR (S i) <= INR (Z.to_nat z)) by (apply le_INR; lia). rewrite S_INR in *. lra.
  - intros (i & -> & Hi). exists i. split; auto. apply in_seq. split; [lia|]. simpl. apply INR_lt. lra.
Qed.
Lemma arange_sorted lo hi : StronglySorted Rlt (arange lo hi).
Proof.
  unfold arange. generalize (Z.to_nat (ceiling (hi - lo))). intros n. generalize 0%nat. induction n; intros k; simpl; constructor.
  - apply IHn.
  - apply Forall_map, Forall_forall. intros j Hj. apply in_seq in Hj. assert (INR k < INR j) by (apply lt_INR; lia). lra.
Qed.

(** C50: the integers from min to max *)
Lemma arange_integers (a b : Z) : (a <= b)%Z ->
  arange (IZR a) (IZR b + 1) = map (fun i => IZR (a + Z.of_nat i)) (seq 0 (Z.to_nat (b - a + 1))).
Proof.
  intros H. unfold arange. replace (ceiling (IZR b + 1 - IZR a)) with (b - a + 1)%Z.
  - apply map_ext. intros i. rewrite plus_IZR, <- INR_IZR_INZ. reflexivity.
  - symmetry. apply ceiling_spec. rewrite plus_IZR, minus_IZR. lra.
Qed.

(** C50: bounds that are not a whole number apart: one value too many *)
Lemma arange_overshoots lo hi : lo <= hi -> (forall k : nat, hi <> lo + INR k) ->
  exists x, In x (arange lo (hi + 1)) /\ hi < x.
Proof.
  intros H N. set (k := Z.to_nat (Int_part (hi - lo))). destruct (base_Int_part (hi - lo)) as [B1 B2].
  assert (Hz : (0 <= Int_part (hi - lo))%Z).
  { assert (-1 < Int_part (hi - lo))%Z; [|lia]. apply lt_IZR. lra. }
  assert (Ez : INR k = IZR (Int_part (hi - lo))) by (unfold k; rewrite INR_IZR_INZ, Z2Nat.id by lia; auto).
  exists (lo + INR (S k)). rewrite S_INR. split.
  - apply arange_in; [lra|]. exists (S k). rewrite S_INR. split; auto. specialize (N k). lra.
  - lra.
Qed.

Lemma linspace_props lo hi : lo <= hi ->
  length (linspace lo hi 100) = 100%nat /\ nth 0 (linspace lo hi 100) 0 = lo /\ nth 99 (linspace lo hi 100) 0 = hi /\
  (forall i, (i < 99)%nat -> nth (S i) (linspace lo hi 100) 0 - nth i (linspace lo hi 100) 0 = (hi - lo) / 99) /\
  Forall (fun x => lo <= x <= hi) (linspace lo hi 100).
Proof.
  intros H.
  assert (E : forall i, (i < 100)%nat -> nth i (linspace lo hi 100) 0 = lo + INR i * ((hi - lo) / (INR 100 - 1))).
  { intros i Hi. unfold linspace. set (F := fun i => lo + INR i * ((hi - lo) / (INR 100 - 1))). change (nth i (map F (seq 0 100)) 0 = F i).
    rewrite (nth_indep _ 0 (F 0%nat)) by now rewrite map_length, seq_length. rewrite map_nth. now rewrite seq_nth. }
  assert (E99 : INR 100 - 1 = 99) by (rewrite INR_IZR_INZ; simpl; lra). rewrite E99 in E.
  split; [unfold linspace; now rewrite map_length, seq_length|].
  split; [rewrite E by lia; change (INR 0) with 0; lra|].
  split; [rewrite E by lia; rewrite INR_IZR_INZ; simpl; field|].
  split.
  - intros i Hi. rewrite !E by lia. rewrite S_INR. field.
  - unfold linspace. apply Forall_map, Forall_forall. intros i Hi. apply in_seq in Hi. rewrite E99.
    assert (0 <= INR i) by apply pos_INR. assert (INR i <= 99) by (replace 99 with (INR 99) by (rewrite INR_IZR_INZ; simpl; lra); apply le_INR; lia).
    assert (0 <= (hi - lo) / 99) by lra. split. nra. assert (INR i * ((hi - lo) / 99) <= 99 * ((hi - lo) / 99)) by (apply Rmult_le_compat_r; auto). lra.
Qed.

(** ** Conditional tables *)
Lemma total_scal c l : total_of (map (fun y => y / c) l) = total_of l / c.
Proof. unfold total_of. induction l; simpl. unfold Rdiv; ring. rewrite IHl. unfold Rdiv; ring. Qed.
Lemma curve_cond j yy c : curve j (map (map (fun y => y / c)) yy) = map (fun y => y / c) (curve j yy).
Proof.
  unfold curve. rewrite !map_map. apply map_ext. intros row. rewrite <- (map_nth (fun y => y / c)). f_equal. unfold Rdiv. ring.
Qed.

Lemma table_sum_curves m yy : table m yy -> table_sum yy = total_of (map (fun j => total_of (curve j yy)) (seq 0 m)).
Proof.
  unfold table_sum, total_of. induction 1 as [|row yy Hr F IH]; simpl.
  - induction (seq 0 m); simpl; lra.
  - rewrite IH. clear IH.
    assert (G : forall g (l : list nat), fold_right Rplus 0 (map (fun j => nth j row 0 + g j) l) =
        fold_right Rplus 0 (map (fun j => nth j row 0) l) + fold_right Rplus 0 (map g l)).
    { intros g l. induction l; simpl; lra. }
    rewrite (G (fun j => fold_right Rplus 0 (curve j yy))). f_equal.
    rewrite <- Hr. f_equal. symmetry. clear. induction row as [|a row IH]; simpl; auto. f_equal.
    rewrite <- seq_shift, map_map. exact IH.
Qed.

Lemma conditional_one yy : table 1 yy -> table_sum yy <> 0 -> total_of (curve 0 (conditional_values yy)) = 1.
Proof.
  intros T N. unfold conditional_values. rewrite curve_cond, total_scal.
  assert (E := table_sum_curves 1 yy T). change (table_sum yy = total_of (curve 0 yy) + 0) in E. rewrite Rplus_0_r in E.
  rewrite <- E. now apply Rinv_r.
Qed.
Lemma conditional_share m yy j : table m yy ->
  total_of (curve j (conditional_values yy)) = total_of (curve j yy) / total_of (map (fun j => total_of (curve j yy)) (seq 0 m)).
Proof. intros T. unfold conditional_values. rewrite curve_cond, total_scal. now rewrite <- table_sum_curves. Qed.

Lemma total_nonneg l : Forall (fun x => 0 <= x) l -> 0 <= total_of l.
Proof. unfold total_of. induction 1; simpl; lra. Qed.

Lemma total_cons a l : total_of (a :: l) = a + total_of l.
Proof. reflexivity. Qed.
Lemma total_nil : total_of [] = 0.
Proof. reflexivity. Qed.

Lemma total_pos_seq (g : nat -> R) : forall n k, (1 <= n)%nat -> (forall j, (k <= j < k + n)%nat -> 0 < g j) ->
  0 < total_of (map g (seq k n)).
Proof.
  induction n as [|n IH]; intros k H P; [lia|]. cbn [seq map]. rewrite total_cons.
  assert (0 < g k) by (apply P; lia). destruct n.
  - cbn [seq map]. rewrite total_nil. lra.
  - assert (0 < total_of (map g (seq (S k) (S n)))) by (apply IH; [lia|]; intros; apply P; lia). lra.
Qed.
Lemma total_gt_one (g : nat -> R) : forall n k j, (k <= j < k + n)%nat -> (2 <= n)%nat -> (forall j, (k <= j < k + n)%nat -> 0 < g j) ->
  g j < total_of (map g (seq k n)).
Proof.
  induction n as [|n IH]; intros k j Hj Hn P; [lia|]. cbn [seq map]. rewrite total_cons.
  assert (T : 0 < total_of (map g (seq (S k) n))) by (apply total_pos_seq; [lia|]; intros; apply P; lia).
  destruct (Nat.eq_dec j k) as [->|N]; [lra|]. assert (0 < g k) by (apply P; lia).
  destruct n as [|[|n]]; [lia| |].
  - assert (j = S k) by lia. subst. cbn [seq map]. rewrite total_cons, total_nil. lra.
  - assert (g j < total_of (map g (seq (S k) (S (S n))))) by (apply IH; try lia; intros; apply P; lia). lra.
Qed.

Lemma share_lt_one m yy j : table m yy -> (2 <= m)%nat -> (j < m)%nat ->
  (forall j, (j < m)%nat -> 0 < total_of (curve j yy)) -> total_of (curve j (conditional_values yy)) < 1.
Proof.
  intros T Hm Hj P. rewrite (conditional_share m) by auto.
  pose proof (total_gt_one (fun j => total_of (curve j yy)) m 0 j ltac:(lia) Hm ltac:(intros; apply P; lia)) as L.
  cbv beta in L. assert (0 < total_of (curve j yy)) by auto.
  apply Rmult_lt_reg_r with (total_of (map (fun j => total_of (curve j yy)) (seq 0 m))); [lra|].
  unfold Rdiv. rewrite Rmult_assoc, Rinv_l by lra. lra.
Qed.

(** a cdf divided by the sum of its values *)
Lemma conditional_cdf_last f : forall x, 0 < x -> (exists y, In y f /\ 0 < y) -> Forall (fun y => 0 <= y) f ->
  let yy := map (fun y => [y]) (f ++ [x]) in
  nth (length f) (curve 0 (conditional_values yy)) 0 < 1.
Proof.
  intros x Hx (y & Hy & Py) F yy.
  assert (S : table_sum yy = total_of f + x).
  { unfold yy, table_sum, total_of. clear - f. induction f as [|a f IH]; simpl. lra. rewrite IH. lra. }
  assert (P : 0 < total_of f).
  { clear - Hy Py F. unfold total_of. induction F as [|a f Ha F IH]; simpl in *; [tauto|].
    destruct Hy as [->|Hy]. assert (0 <= fold_right Rplus 0 f) by (clear - F; induction F; simpl; lra). lra. specialize (IH Hy). lra. }
  unfold conditional_values. rewrite curve_cond, S.
  replace (curve 0 yy) with (f ++ [x]) by (unfold yy, curve; rewrite map_map; simpl; now rewrite map_id).
  rewrite map_app, app_nth2 by (rewrite map_length; lia). rewrite map_length, Nat.sub_diag. simpl.
  apply Rmult_lt_reg_r with (total_of f + x); [lra|]. unfold Rdiv. rewrite Rmult_assoc, Rinv_l by lra. lra.
Qed.

(** ** Labels *)
Lemma label_single l n : resolve_label l [n] = Ok (Single l) /\ resolve_label l [n; 1%nat] = Ok (Single l).
Proof. split; reflexivity. Qed.
Lemma label_each l n m : m <> 1%nat -> exists ls, resolve_label l [n; m] = Ok (Each ls) /\
  match l with
  | LNone => ls = repeat None m
  | LStr s => length ls = m /\ forall i, (i < m)%nat -> nth i ls None = Some (s ++ " " ++ str_of_nat (i + 1))%string
  | LCallable f => length ls = m /\ forall i, (i < m)%nat -> nth i ls None = Some (f i)
  | LIter l => ls = map Some l
  end.
Proof.
  intros N. simpl. destruct (Nat.eqb_spec m 1); [lia|]. eexists. split; [reflexivity|]. destruct l as [|s|l|f]; simpl; auto.
  - rewrite map_length, seq_length. split; auto. intros i Hi.
    rewrite (nth_indep _ None (Some (s ++ " " ++ str_of_nat 0)%string)) by now rewrite map_length, seq_length.
    rewrite (map_nth (fun i => Some (s ++ " " ++ str_of_nat i)%string)), seq_nth by auto. replace (i + 1)%nat with (1 + i)%nat by lia. reflexivity.
  - rewrite map_length, seq_length. split; auto. intros i Hi.
    rewrite (nth_indep _ None (Some (f 0%nat))) by now rewrite map_length, seq_length.
    rewrite (map_nth (fun i => Some (f i))), seq_nth by auto. reflexivity.
Qed.

(** different curves get different string labels *)
Lemma str_of_nat_inj n m : str_of_nat n = str_of_nat m -> n = m.
Proof.
  assert (NN : forall n, Nat.to_uint n <> Decimal.Nil).
  { intros k. rewrite <- (DecimalNat.Unsigned.of_to k), DecimalNat.Unsigned.to_of. apply DecimalFacts.unorm_nonnil. }
  unfold str_of_nat. intros H. apply (f_equal DecimalString.NilZero.uint_of_string) in H.
  rewrite !DecimalString.NilZero.usu in H by apply NN.
  injection H as H. now apply DecimalNat.Unsigned.to_uint_inj.
Qed.

(** number of curves: one for every member of the family *)
Lemma curves_of_family n floats m (params : list (list nat)) :
  In false floats -> Forall (fun s => s = [] \/ s = [m]) params -> In [m] params ->
  yy_shape n floats params = Some [n; m].
Proof.
  intros Hf F I. unfold yy_shape, reshape_x.
  replace (forallb (fun b => b) floats) with false.
  2:{ symmetry. apply Bool.not_true_is_false. intros H. rewrite forallb_forall in H. specialize (H false Hf). discriminate. }
  assert (B0 : forall k, broadcast_shapes [n; k] [] = Some [n; k]) by (intros; reflexivity).
  assert (B1 : broadcast_shapes [n; 1%nat] [m] = Some [n; m]).
  { unfold broadcast_shapes. cbn [rev app bc option_map]. destruct (Nat.eqb_spec 1 m); subst; reflexivity. }
  assert (Bm : broadcast_shapes [n; m] [m] = Some [n; m]) by (unfold broadcast_shapes; cbn [rev app bc option_map]; now rewrite Nat.eqb_refl).
  assert (K : forall l, Forall (fun s => s = [] \/ s = [m]) l ->
     fold_left (fun s p => match s with Some s => broadcast_shapes s p | None => None end) l (Some [n; m]) = Some [n; m]).
  { induction 1 as [|s l [-> | ->] Fl IH]; cbn [fold_left]; [reflexivity|rewrite B0; auto|rewrite Bm; auto]. }
  induction F as [|s l [-> | ->] Fl IH]; simpl in I; [tauto| |].
  - destruct I as [I|I]; [discriminate|]. cbn [fold_left]. rewrite B0. auto.
  - cbn [fold_left]. rewrite B1. now apply K.
Qed.
Lemma curves_of_scalars n floats (params : list (list nat)) : Forall (fun s => s = []) params ->
  yy_shape n floats params = Some (if forallb (fun b => b) floats then [n] else [n; 1%nat]).
Proof.
  intros F. unfold yy_shape, reshape_x.
  assert (K : forall s, fold_left (fun s p => match s with Some s => broadcast_shapes s p | None => None end) params (Some s) = Some s).
  { intros s. assert (B : broadcast_shapes s [] = Some s).
    { unfold broadcast_shapes. simpl. replace (bc (rev s) []) with (Some (rev s)) by now destruct (rev s). simpl. now rewrite rev_involutive. }
    induction F as [|p l -> Fl IH]; cbn [fold_left]; auto. now rewrite B. }
  apply K.
Qed.

(** ** Ticks *)
Lemma every_nth {A} (d : A) : forall l k i, nth i (every 5 k l) d = nth (k + 5 * i) l d.
Proof.
  induction l as [|a l IH]; intros k i; cbn [every].
  - destruct i; cbn [nth]; destruct (k + _)%nat; reflexivity.
  - destruct k.
    + destruct i; cbn [nth]; [reflexivity|]. rewrite IH. replace (0 + 5 * S i)%nat with (S (5 - 1 + 5 * i)) by lia. reflexivity.
    + rewrite IH. reflexivity.
Qed.

(** ** Classes whose constructor sets bounds *)
Lemma get_field_number fields f v : Forall number_field fields -> get_field fields f = Ok v ->
  exists a, v = PArr a /\ nd_shape a = [].
Proof.
  unfold get_field. intros F. destruct (find _ fields) as [p|] eqn:E; [|discriminate]. intros H. injection H as <-.
  apply find_some in E. rewrite Forall_forall in F. exact (F p (proj1 E)).
Qed.
Lemma construct_numbers c fields o : pc_bounds c <> NoBounds -> Forall number_field fields -> construct c fields = Ok o ->
  o_class o = c /\ (exists a, effective_min o = BNum a) /\ exists b, o_max o = Some (BNum b).
Proof.
  intros N F. unfold construct. destruct (pc_bounds c) as [| |f|lo hi|]; [tauto| | | |].
  - intros H. injection H as <-. unfold effective_min; simpl. eauto.
  - destruct (get_field fields f) as [v|] eqn:G; [|discriminate]. destruct (get_field_number _ _ _ F G) as (a & -> & S).
    simpl. unfold max_of. rewrite S. simpl. intros H. injection H as <-. unfold effective_min; simpl. eauto.
  - destruct (get_field fields lo) as [v|] eqn:G; [|discriminate]. destruct (get_field_number _ _ _ F G) as (a & -> & S).
    destruct (get_field fields hi) as [w|] eqn:G'; [|discriminate]. destruct (get_field_number _ _ _ F G') as (b & -> & S').
    simpl. rewrite S, S'. intros H. injection H as <-. unfold effective_min; simpl. eauto.
  - intros H. injection H as <-. unfold effective_min; simpl. eauto.
Qed.
Lemma plot_constructed c fields o h ops : pc_bounds c <> NoBounds -> Forall number_field fields -> construct c fields = Ok o ->
  exists h' g, step (run_history h (New c fields :: ops)) (Plot (length h)) = (h', Grid g).
Proof.
  intros B F H. destruct (construct_numbers c fields o B F H) as (C & (a & Ea) & b & Eb).
  destruct (new_object h c fields _ H) as (h1 & S & N & _).
  destruct (plot_last_bounds h1 ops (length h) _ N) as (h' & P). exists h'.
  cbn [run_history fold_left]. rewrite S. cbn [fst]. change (fold_left _ ops h1) with (run_history h1 ops). rewrite P.
  unfold effective_min in Ea. rewrite Ea, Eb. clear.
  destruct (last_set (sets_min (length h)) ops), (last_set (sets_max (length h)) ops); eexists; reflexivity.
Qed.

(** a slice of a distribution with settable bounds has none, whatever was set on the original *)
Lemma slice_loses_bounds h r o k ops : nth_error h r = Some o -> pc_bounds (o_class o) = NoBounds ->
  last_set (sets_max (length h)) ops = None ->
  exists h', step (run_history h (Slice r k :: ops)) (Plot (length h)) = (h', Failed (ValueError "Set the max value before plotting.")).
Proof.
  intros H B L. unfold run_history. cbn [fold_left]. rewrite (slice_object h r k o H).
  exact (plot_never_set (o_class o) (dist_getitem 0 (o_fields o) k) h ops B L).
Qed.

(** Uniform with array bounds *)
Lemma uniform_arrays c lo hi vl vh h : pc_bounds c = Between lo hi -> pc_kind c = Continuous ->
  forall fields, get_field fields lo = Ok vl -> get_field fields hi = Ok vh ->
  (forall a, vl = PArr a -> nd_shape a <> []) ->
  exists h', step (run_history h [New c fields]) (Plot (length h)) = (h', Failed (ValueError "x and y can be no greater than 2D")).
Proof.
  intros B K fields G1 G2 A.
  assert (C : construct c fields = Ok (mkObject c fields (Some (BVec vl)) (Some (as_bound vh)))).
  { unfold construct. rewrite B, G1, G2. simpl. unfold as_bound at 1. destruct vl as [a| |]; auto.
    specialize (A a eq_refl). destruct (nd_shape a); [tauto|]. reflexivity. }
  destruct (new_object h c fields _ C) as (h1 & S & N & _).
  destruct (plot_last_bounds h1 [] (length h) _ N) as (h' & P). exists h'.
  cbn [run_history fold_left] in *. rewrite S. cbn [fst]. rewrite P. simpl. now rewrite K.
Qed.

(** Dirichlet *)
Lemma zip_longest_drawn (ls : list (option string)) : forall k m, (length ls <= m)%nat -> exists out,
  sequence (map (fun p : option nat * option (option string) => match p with
                 | (Some col, Some lab) => Ok (col, lab)
                 | (Some col, None) => Ok (col, None)
                 | (None, _) => Raise (ValueError "`dataset` input should have multiple elements.")
                 end) (zip_longest (seq k m) ls)) = Ok out /\ length out = m /\
  forall i, (i < m)%nat -> nth i out (0%nat, None) = ((k + i)%nat, nth i ls None).
Proof.
  induction ls as [|x ls IH]; intros k m L.
  - revert k. induction m as [|m IH]; intros k.
    + exists []. split; [reflexivity|]. split; [reflexivity|]. simpl. intros i H. inversion H.
    + destruct (IH ltac:(simpl; lia) (S k)) as (out & E & EL & EN). exists ((k, None) :: out).
      destruct m as [|m]; cbn [seq zip_longest map sequence] in *.
      { injection E as <-. split; [reflexivity|]. split; [reflexivity|]. intros [|i] Hi; [|lia]. simpl. now rewrite Nat.add_0_r. }
      rewrite E. split; [reflexivity|]. split; [simpl in *; lia|]. intros [|i] Hi; cbn [nth].
      * now rewrite Nat.add_0_r.
      * rewrite EN by lia. replace (S k + i)%nat with (k + S i)%nat by lia. now destruct i.
  - destruct m as [|m]; [simpl in L; lia|]. destruct (IH (S k) m ltac:(simpl in L; lia)) as (out & E & EL & EN).
    exists ((k, x) :: out). cbn [seq zip_longest map]. cbn [sequence].
    rewrite E. split; [reflexivity|]. split; [simpl; auto|]. intros [|i] Hi; simpl.
    + now rewrite Nat.add_0_r.
    + rewrite EN by lia. f_equal. lia.
Qed.
Lemma zip_longest_raises (ls : list (option string)) : forall k m, (m < length ls)%nat ->
  sequence (map (fun p : option nat * option (option string) => match p with
                 | (Some col, Some lab) => Ok (col, lab)
                 | (Some col, None) => Ok (col, None)
                 | (None, _) => Raise (ValueError "`dataset` input should have multiple elements.")
                 end) (zip_longest (seq k m) ls)) = Raise (ValueError "`dataset` input should have multiple elements.").
Proof.
  induction ls as [|x ls IH]; intros k m L; [simpl in L; lia|].
  destruct m as [|m]; [reflexivity|]. cbn [seq zip_longest map sequence]. now rewrite IH by (simpl in L; lia).
Qed.
Lemma dirichlet_plot_vector (a : nd R) (m : nat) l : nd_shape a = [m] ->
  (length (label_to_iterable l m) <= m)%nat ->
  exists out, dirichlet_plot (mkDirichlet (OVal (CArr a))) l = Ok out /\ length out = m /\
    forall i, (i < m)%nat -> nth i out (0%nat, None) = (i, nth i (label_to_iterable l m) None).
Proof.
  intros S L. unfold dirichlet_plot, Dirichlet_dist. cbn [Dirichlet_alpha]. rewrite S. cbn [length Nat.eqb bind]. rewrite S. cbn [nth].
  exact (zip_longest_drawn _ 0 m L).
Qed.
Lemma dirichlet_plot_too_many (a : nd R) (m : nat) l : nd_shape a = [m] ->
  (m < length (label_to_iterable l m))%nat ->
  dirichlet_plot (mkDirichlet (OVal (CArr a))) l = Raise (ValueError "`dataset` input should have multiple elements.").
Proof.
  intros S L. unfold dirichlet_plot, Dirichlet_dist. cbn [Dirichlet_alpha]. rewrite S. cbn [length Nat.eqb bind]. rewrite S. cbn [nth].
  exact (zip_longest_raises _ 0 m L).
Qed.
Lemma dirichlet_plot_matrix (a : nd R) (m n : nat) l : nd_shape a = [m; n] ->
  dirichlet_plot (mkDirichlet (OVal (CArr a))) l = Raise (TypeError "rvs() got an unexpected keyword argument 'random_state'").
Proof. intros S. unfold dirichlet_plot, Dirichlet_dist. simpl. now rewrite S. Qed.
Lemma dirichlet_plot_list (v : list R) l : exists msg,
  dirichlet_plot (mkDirichlet (OVal (CList v))) l = Raise (AttributeError msg).
Proof. unfold dirichlet_plot, Dirichlet_dist. simpl. eexists. reflexivity. Qed.

(** ** Number of ticks *)
Lemma ticks_spec lo hi x : (hi - lo < 15 -> xticks lo hi x = (x, [])) /\
  (15 <= hi - lo -> exists major, xticks lo hi x = (major, x) /\ forall i d, nth i major d = nth (5 * i) x d).
Proof.
  unfold xticks. destruct (Rlt_dec (hi - lo) 15) as [H|H]; split; intros G; try lra; auto.
  exists (every 5 0 x). split; auto. intros. now rewrite every_nth.
Qed.
