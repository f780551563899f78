(** Indexing with tuples. *)

From Coq Require Import ZArith Bool Lia Sorted Reals String.
From Verif Require Import Model.Num Model.Py Model.Table Model.NdArray Model.SliceModel Model.TupleKeys.
From Verif Require Import Spec.Defined Spec.Shapes Spec.Indexing Spec.TupleKeys Proofs.Shapes Proofs.Slice.
From Coq Require Import List.
Import ListNotations.
Local Open Scope nat_scope.

(** ** every slice selects something *)
Lemma filter_sorted f m k : StronglySorted lt (filter f (seq k m)).
Proof.
  revert k. induction m as [|m IH]; intros k; [constructor|]. cbn [seq filter]. destruct (f k); [|apply IH].
  constructor; [apply IH|]. apply Forall_forall. intros x Hx. apply filter_In in Hx. destruct Hx as [Hx _]. apply in_seq in Hx. lia.
Qed.
Lemma rev_sorted l : StronglySorted lt l -> StronglySorted gt (rev l).
Proof.
  induction l as [|a l IH]; intros S; [constructor|]. inversion S as [|? ? Sl Fa]; subst. specialize (IH Sl). cbn [rev].
  assert (G : forall l', StronglySorted gt l' -> Forall (fun x => (a < x)%nat) l' -> StronglySorted gt (l' ++ [a])).
  { intros l'. induction l' as [|b l' IH']; intros S' F'; [repeat constructor|]. cbn. inversion S'; inversion F'; subst.
    constructor; [auto|]. apply Forall_app. split; [assumption|]. constructor; [lia|constructor]. }
  apply G; [exact IH|]. apply Forall_rev. exact Fa.
Qed.
Lemma slice_selects m start stop step : step <> 0%Z -> exists l, selects m (KSlice start stop step) l.
Proof.
  intros H. destruct (Z.lt_ge_cases 0 step) as [P|P].
  - set (first := Z.max 0 (bound m 0 start)).
    exists (filter (fun i => (first <=? Z.of_nat i)%Z && (Z.of_nat i <? bound m (Z.of_nat m) stop)%Z && (((Z.of_nat i - first) mod step) =? 0)%Z) (seq 0 m)).
    apply sel_forward; [exact P|apply filter_sorted|]. cbv zeta. fold first. intros i. rewrite filter_In, in_seq, !andb_true_iff, Z.leb_le, Z.ltb_lt, Z.eqb_eq. lia.
  - set (first := Z.min (Z.of_nat m - 1) (bound m (Z.of_nat m - 1) start)).
    exists (rev (filter (fun i => (bound m (-1) stop <? Z.of_nat i)%Z && (Z.of_nat i <=? first)%Z && (((first - Z.of_nat i) mod (- step)) =? 0)%Z) (seq 0 m))).
    apply sel_backward; [lia|apply rev_sorted, filter_sorted|]. cbv zeta. fold first. intros i. rewrite <- in_rev, filter_In, in_seq, !andb_true_iff, Z.leb_le, Z.ltb_lt, Z.eqb_eq. lia.
Qed.

Lemma whole_selects d : selects d (KSlice None None 1) (seq 0 d).
Proof.
  apply sel_forward; [lia| |].
  - pose proof (filter_sorted (fun _ => true) d 0) as F. replace (filter (fun _ => true) (seq 0 d)) with (seq 0 d) in F; [exact F|].
    generalize (seq 0 d). intros l. induction l; [reflexivity|]. cbn. now f_equal.
  - cbn. intros i. rewrite in_seq, Z.mod_1_r. lia.
Qed.

(** ** the expanded key means the same *)
Definition plain (ks : list key_item) : Prop := Forall (fun k => k <> IDots) ks.

Lemma dots_count ks : (length (filter is_dots ks) = 0)%nat <-> plain ks.
Proof.
  unfold plain. induction ks as [|k ks IH]; [split; [constructor|reflexivity]|]. destruct k; cbn [filter is_dots length].
  1-3: rewrite IH; split; [constructor; [discriminate|assumption]|now inversion 1].
  split; [discriminate|]. inversion 1. congruence.
Qed.
Lemma existsb_dots ks : existsb is_dots ks = negb (Nat.eqb (length (filter is_dots ks)) 0).
Proof. induction ks as [|k ks IH]; [reflexivity|]. destruct k; cbn; auto. Qed.

(** exactly one Ellipsis *)
Definition one_dots (ks : list key_item) : Prop := length (filter is_dots ks) = 1%nat.
Lemma full_key_one ks : (length (filter is_dots ks) <= 1)%nat -> one_dots (full_key ks).
Proof.
  intros H. unfold full_key, one_dots. rewrite existsb_dots. destruct (Nat.eqb_spec (length (filter is_dots ks)) 0) as [E|E]; cbn [negb].
  - rewrite filter_app, app_length, E. reflexivity.
  - lia.
Qed.
Lemma one_cons k ks : one_dots (k :: ks) -> (k = IDots /\ plain ks) \/ (k <> IDots /\ one_dots ks).
Proof.
  unfold one_dots. destruct k; cbn [filter is_dots length]; intros H; try (right; split; [discriminate|exact H]).
  left. split; [reflexivity|]. apply dots_count. lia.
Qed.
Lemma fill_full m ks : fill m (full_key ks) = fill m ks.
Proof.
  unfold full_key. destruct (existsb is_dots ks) eqn:E; [reflexivity|].
  induction ks as [|k ks IH]; [cbn; now rewrite app_nil_r|]. destruct k; cbn in *; try discriminate; now rewrite IH.
Qed.
Lemma used_full ks : used (full_key ks) = used ks.
Proof.
  unfold full_key. destruct (existsb is_dots ks); [reflexivity|]. unfold used.
  induction ks as [|k ks IH]; [reflexivity|]. cbn [app fold_right]. now rewrite IH.
Qed.

Lemma plain_used ks s : plain ks -> (forall i j, reads s ks i j -> used ks = length s) /\ (suits s ks -> used ks = length s).
Proof.
  unfold plain. revert s. induction ks as [|k ks IH]; intros s P; inversion P as [|? ? H1 H2]; subst.
  - split; [intros i j H; now inversion H|intros H; now inversion H].
  - destruct k; try congruence; split.
    1,3,5: intros i' j' Hr; inversion Hr; subst; cbn; try apply f_equal; eapply (proj1 (IH _ H2)); eassumption.
    all: intros Hr; inversion Hr; subst; cbn; try apply f_equal; eapply (proj2 (IH _ H2)); eassumption.
Qed.

Lemma repeat_reads m ks s i j : plain ks -> used ks + m = length s ->
  reads s (IDots :: ks) i j <-> reads s (repeat whole m ++ ks) i j.
Proof.
  intros P. revert s i j. induction m as [|m IH]; intros s i j E; cbn [repeat app].
  - split; [|now constructor]. intros H. inversion H; subst; [|assumption]. exfalso.
    assert (forall s i j, reads s (IDots :: ks) i j -> (used ks <= length s)%nat) as G.
    { clear - P. intros s i j H. remember (IDots :: ks) as K. induction H; try discriminate; injection HeqK as ->.
      - cbn. specialize (IHreads eq_refl). lia.
      - now rewrite (proj1 (plain_used ks s P) _ _ H). }
    match goal with H : reads _ (IDots :: ks) _ _ |- _ => apply G in H end. cbn in E. lia.
  - split.
    + intros H. inversion H; subst.
      * econstructor; [apply whole_selects| |].
        -- rewrite nth_error_nth' with (d := 0%nat) by (now rewrite seq_length). now rewrite seq_nth.
        -- apply IH; [cbn in E; lia|assumption].
      * match goal with H : reads _ ks _ _ |- _ => apply (proj1 (plain_used ks _ P)) in H end. lia.
    + intros H. inversion H; subst.
      match goal with H : selects _ _ _ |- _ => apply select_spec in H; rewrite (select_spec _ _ _ (whole_selects _)) in H; injection H as <- end.
      match goal with H : nth_error (seq 0 ?d) ?c = Some ?p |- _ =>
        assert (c < d)%nat by (rewrite <- (seq_length d 0); apply nth_error_Some; congruence);
        rewrite nth_error_nth' with (d := 0%nat) in H by (now rewrite seq_length); rewrite seq_nth in H by assumption; injection H as <- end.
      constructor; [assumption|]. apply IH; [cbn in E; lia|assumption].
Qed.

Lemma fill_reads ks s i j : one_dots ks -> (used ks <= length s)%nat ->
  reads s ks i j <-> reads s (fill (length s - used ks) ks) i j.
Proof.
  revert s i j. induction ks as [|k ks IH]; intros s i j O U; [discriminate|].
  destruct (one_cons _ _ O) as [[-> P]|[N O']].
  - cbn [fill]. cbn in U. apply repeat_reads; [exact P|]. cbn. fold (used ks) in *. lia.
  - destruct k; try congruence; cbn [fill]; cbn [used fold_right uses] in *; fold (used ks) in *.
    + split; intros H; inversion H; subst; constructor; auto; cbn [length] in *.
      * specialize (IH s0 i j0 O' ltac:(lia)). replace (S (length s0) - (1 + used ks))%nat with (length s0 - used ks)%nat by lia. now apply IH.
      * specialize (IH s0 i j0 O' ltac:(lia)). replace (S (length s0) - (1 + used ks))%nat with (length s0 - used ks)%nat in * by lia. now apply IH.
    + split; intros H; inversion H; subst; econstructor; eauto; cbn [length] in *.
      * specialize (IH s0 i0 j0 O' ltac:(lia)). replace (S (length s0) - (1 + used ks))%nat with (length s0 - used ks)%nat by lia. now apply IH.
      * specialize (IH s0 i0 j0 O' ltac:(lia)). replace (S (length s0) - (1 + used ks))%nat with (length s0 - used ks)%nat in * by lia. now apply IH.
    + split; intros H; inversion H; subst; constructor; now apply IH.
Qed.

Lemma suits_used ks s : one_dots ks -> suits s ks -> (used ks <= length s)%nat.
Proof.
  intros O H. induction H as [|d s k ks Hk H IH|d s start stop step ks Hk H IH|s ks H IH|d s ks H IH|s ks H IH].
  - discriminate.
  - destruct (one_cons _ _ O) as [[? _]|[_ O']]; [discriminate|]. specialize (IH O'). unfold used in *. cbn in *. lia.
  - destruct (one_cons _ _ O) as [[? _]|[_ O']]; [discriminate|]. specialize (IH O'). unfold used in *. cbn in *. lia.
  - destruct (one_cons _ _ O) as [[? _]|[_ O']]; [discriminate|]. specialize (IH O'). unfold used in *. cbn in *. lia.
  - specialize (IH O). cbn [length]. lia.
  - destruct (one_cons _ _ O) as [[_ P]|[N _]]; [|congruence]. pose proof (proj2 (plain_used ks s P) H) as E. unfold used in *. cbn in *. lia.
Qed.

Lemma repeat_suits m ks s : plain ks -> used ks + m = length s -> suits s (IDots :: ks) <-> suits s (repeat whole m ++ ks).
Proof.
  intros P. revert s. induction m as [|m IH]; intros s E; cbn [repeat app].
  - split; [|now constructor]. intros H. inversion H; subst; [|assumption]. exfalso.
    assert (O : one_dots (IDots :: ks)) by (unfold one_dots; cbn; now rewrite (proj2 (dots_count ks) P)).
    match goal with H : suits _ (IDots :: ks) |- _ => apply (suits_used _ _ O) in H; cbn in H end. fold (used ks) in *. cbn in E. fold (used ks) in E. lia.
  - split.
    + intros H. inversion H; subst.
      * constructor; [lia|]. apply IH; [cbn in E; lia|assumption].
      * match goal with H : suits _ ks |- _ => apply (proj2 (plain_used ks _ P)) in H end. lia.
    + intros H. inversion H; subst. constructor. apply IH; [cbn in E; lia|assumption].
Qed.

Lemma fill_suits ks s : one_dots ks -> (used ks <= length s)%nat -> suits s ks <-> suits s (fill (length s - used ks) ks).
Proof.
  revert s. induction ks as [|k ks IH]; intros s O U; [discriminate|].
  destruct (one_cons _ _ O) as [[-> P]|[N O']].
  - cbn [fill]. cbn in U. apply repeat_suits; [exact P|]. cbn. fold (used ks) in *. lia.
  - destruct k; try congruence; cbn [fill]; cbn [used fold_right uses] in *; fold (used ks) in *.
    1,2: split; intros H; inversion H; subst; constructor; auto; cbn [length] in *;
      specialize (IH s0 O' ltac:(lia)); replace (S (length s0) - (1 + used ks))%nat with (length s0 - used ks)%nat in * by lia; now apply IH.
    split; intros H; inversion H; subst; constructor; now apply IH.
Qed.

Lemma fill_plain m ks : (length (filter is_dots ks) <= 1)%nat -> plain (fill m ks).
Proof.
  assert (W : forall l, plain l -> plain (repeat whole m ++ l)).
  { intros l P. unfold plain. apply Forall_app. split; [|exact P]. apply Forall_forall. intros x Hx. apply repeat_spec in Hx. subst. discriminate. }
  induction ks as [|k ks IH]; intros H; cbn [fill].
  - rewrite <- app_nil_r. apply W. constructor.
  - destruct k; cbn in H; try (constructor; [discriminate|]; apply IH; exact H). apply W, dots_count. lia.
Qed.

(** ** the view *)
Lemma view_spec ks s : plain ks ->
  match view s ks with
  | Ok (t, g) => suits s ks /\ (forall i j, reads s ks i j <-> within t i /\ j = g i) /\ (forall i, within t i -> within s (g i))
  | Raise _ => ~ suits s ks
  end.
Proof.
  unfold plain, within. revert s. induction ks as [|k ks IH]; intros s P; inversion P as [|? ? H1 H2]; subst; clear P.
  - destruct s as [|d s]; cbn [view].
    + split; [constructor|]. split.
      * intros i j. split; [intros H; inversion H; subst; split; [constructor|reflexivity]|intros [H ->]; inversion H; constructor].
      * intros i H. inversion H. constructor.
    + intros H. inversion H.
  - destruct k as [z|start stop step| |]; try congruence.
    + destruct s as [|d s]; cbn [view]; [intros H; inversion H|]. destruct (position d z) as [p|] eqn:Ep.
      * apply position_names in Ep. specialize (IH s H2). destruct (view s ks) as [[t g]|e]; cbn [bind fst snd].
        -- destruct IH as (I1 & I2 & I3). split; [constructor; [unfold names in Ep; lia|exact I1]|]. split.
           ++ intros i j. split.
              ** intros H. inversion H; subst.
                 match goal with H : reads _ _ _ _, N : names _ _ _ |- _ => apply I2 in H; destruct H as [? ->]; apply position_names in N; apply position_names in Ep; rewrite Ep in N; injection N as -> end.
                 split; [assumption|reflexivity].
              ** intros [W ->]. constructor; [exact Ep|]. apply I2. auto.
           ++ intros i W. constructor; [apply Ep|now apply I3].
        -- intros H. inversion H; subst. auto.
      * intros H. inversion H; subst. apply position_none in Ep. lia.
    + destruct s as [|d s]; cbn [view]; [intros H; inversion H|]. cbn [select]. destruct (Z.eqb_spec step 0) as [->|Hs]; cbn [bind].
      * intros H. inversion H; subst. congruence.
      * destruct (slice_selects d start stop step Hs) as [l Hl]. pose proof (select_spec _ _ _ Hl) as E. cbn [select] in E.
        destruct (Z.eqb_spec step 0); [congruence|]. injection E as E. rewrite E. pose proof (selects_lt _ _ _ Hl) as Lt. rewrite Forall_forall in Lt.
        specialize (IH s H2). destruct (view s ks) as [[t g]|e]; cbn [bind fst snd].
        -- destruct IH as (I1 & I2 & I3). split; [now constructor|]. split.
           ++ intros i j. split.
              ** intros H. inversion H; subst.
                 match goal with H : selects _ _ ?l', N : nth_error ?l' _ = _ |- _ => apply select_spec in H; rewrite (select_spec _ _ _ Hl) in H; injection H as <- end.
                 match goal with H : reads _ _ _ _ |- _ => apply I2 in H; destruct H as [? ->] end. cbn [hd tl].
                 match goal with N : nth_error _ ?c = Some _ |- _ => rewrite (nth_error_nth _ _ 0%nat N); split; [|reflexivity]; constructor; [apply nth_error_Some; congruence|assumption] end.
              ** intros [W ->]. inversion W as [|c ? i' ? Hc W']; subst. cbn [hd tl]. econstructor; [exact Hl|now apply nth_error_nth'|]. apply I2. auto.
           ++ intros i W. inversion W as [|c ? i' ? Hc W']; subst. cbn [hd tl]. constructor; [|now apply I3]. apply Lt. now apply nth_In.
        -- intros H. inversion H; subst. auto.
    + cbn [view]. specialize (IH s H2). destruct (view s ks) as [[t g]|e]; cbn [bind fst snd].
      * destruct IH as (I1 & I2 & I3). split; [now constructor|]. split.
        -- intros i j. split.
           ++ intros H. inversion H; subst. match goal with H : reads _ _ _ _ |- _ => apply I2 in H; destruct H as [? ->] end. cbn [tl]. split; [constructor; [lia|assumption]|reflexivity].
           ++ intros [W ->]. inversion W as [|c ? i' ? Hc W']; subst. cbn [tl]. assert (c = 0%nat) as -> by lia. constructor. apply I2. auto.
        -- intros i W. inversion W; subst. now apply I3.
      * intros H. inversion H; subst. auto.
Qed.

(** ** one array *)
Lemma gettuple_array {A} (a : nd A) ks :
  match nd_gettuple a ks with
  | Ok b => acceptable (nd_shape a) ks /\
      (forall i, within (nd_shape b) i <-> exists j, denotes (nd_shape a) ks i j) /\
      (forall i j, denotes (nd_shape a) ks i j -> within (nd_shape a) j /\ nd_entry b i = nd_entry a j)
  | Raise _ => ~ acceptable (nd_shape a) ks
  end.
Proof.
  unfold nd_gettuple, acceptable, denotes. destruct (nd_shape a) as [|d s0] eqn:Es; [intros [H _]; congruence|].
  set (s := d :: s0) in *. unfold expand. destruct (Nat.ltb_spec 1 (length (filter is_dots ks))) as [C|C].
  { intros (_ & H & _). lia. }
  assert (O := full_key_one ks C).
  destruct (Nat.ltb_spec (length s) (used ks)) as [U|U]; cbn [bind].
  { intros (_ & _ & H). apply (suits_used _ _ O) in H. rewrite used_full in H. lia. }
  pose proof (view_spec (fill (length s - used ks) ks) s (fill_plain _ _ C)) as V.
  assert (RE : forall i j, reads s (full_key ks) i j <-> reads s (fill (length s - used ks) ks) i j).
  { intros i j. rewrite <- (fill_full _ ks), <- (used_full ks). apply fill_reads; [exact O|now rewrite used_full]. }
  assert (SE : suits s (full_key ks) <-> suits s (fill (length s - used ks) ks)).
  { rewrite <- (fill_full _ ks), <- (used_full ks). apply fill_suits; [exact O|now rewrite used_full]. }
  destruct (view s (fill (length s - used ks) ks)) as [[t g]|e]; cbn [bind fst snd nd_shape nd_entry].
  - destruct V as (V1 & V2 & V3). split; [|split].
    + split; [discriminate|]. split; [exact C|]. now apply SE.
    + intros i. split; [intros W; exists (g i); apply RE, V2; auto|]. intros [j H]. now apply RE, V2 in H.
    + intros i j H. apply RE, V2 in H. destruct H as [W ->]. split; [now apply V3|reflexivity].
  - intros (_ & _ & H). apply V. now apply SE.
Qed.

(** ** distributions *)
Lemma denotes_fun {A} (a b : nd A) ks : nd_gettuple a ks = Ok b -> forall i j, denotes (nd_shape a) ks i j -> nd_shape a <> [].
Proof. intros E i j _ H. unfold nd_gettuple in E. now rewrite H in E. Qed.

Lemma shape_only {A} (a b : nd A) ks : nd_shape a = nd_shape b -> rmap nd_shape (nd_gettuple a ks) = rmap nd_shape (nd_gettuple b ks).
Proof.
  intros E. unfold nd_gettuple. rewrite E. destruct (nd_shape b) as [|d s]; [reflexivity|].
  destruct (expand _ ks) as [ks'|]; cbn [bind]; [|reflexivity]. now destruct (view _ ks') as [[t g]|].
Qed.

Lemma gettuple_grid {A} (s : list nat) (ks : list key_item) (params : list (string * param A)) :
  acceptable s ks -> Forall (fun p => grid_of s (snd p)) params ->
  exists t, (forall i, within t i <-> exists j, denotes s ks i j) /\
  Forall2 (fun p q => fst q = fst p /\ grid_of t (snd q) /\
                      (forall i j, denotes s ks i j -> at_place i (snd q) = at_place j (snd p)) /\
                      (forall b, snd p = PFlag b -> snd q = PFlag b))
    params (dist_gettuple params ks).
Proof.
  intros Ha F. set (probe := mkNd s (fun _ => tt)). pose proof (gettuple_array probe ks) as Hp. cbn [nd_shape probe] in Hp.
  destruct (nd_gettuple probe ks) as [b|e] eqn:Eb; [|contradiction]. destruct Hp as (_ & Hw & _). exists (nd_shape b). split; [exact Hw|].
  unfold dist_gettuple. induction F as [|[n v] l H F IH]; cbn [map]; constructor; [|exact IH].
  cbn [fst snd] in *. split; [reflexivity|].
  destruct v as [a|v|f]; cbn [grid_of] in H; [|contradiction|].
  - destruct H as [H|H].
    + assert (E : take_tuple (PArr a) ks = PArr a) by (unfold take_tuple, gettuple, nd_gettuple; now rewrite H).
      rewrite E. cbn [grid_of at_place]. rewrite H. split; [now left|]. split; [reflexivity|discriminate].
    + unfold take_tuple, gettuple. pose proof (gettuple_array a ks) as G. unfold nd_gettuple in *. rewrite H in *. cbn [probe nd_shape] in Eb.
      destruct s as [|d s']; [destruct Ha; congruence|]. set (s := d :: s') in *.
      destruct (expand (length s) ks) as [ks'|]; cbn [bind] in *; [|discriminate]. destruct (view s ks') as [[t g]|]; cbn [bind fst snd] in *; [|discriminate].
      injection Eb as <-. cbn [rmap grid_of nd_shape at_place nd_entry]. split; [now right|]. split; [|discriminate].
      intros i j D. destruct G as (_ & _ & G). destruct (G i j D) as [W E]. cbn [nd_entry] in E. rewrite H. unfold s at 1. rewrite <- E.
      f_equal. destruct t as [|c t]; [|reflexivity]. cbn [nd_shape] in Hw. assert (W' : within [] i) by (apply Hw; now exists j). now inversion W'.
  - cbn. split; [exact Logic.I|]. split; [reflexivity|]. auto.
Qed.

Lemma gettuple_unsuitable {A} (s : list nat) (ks : list key_item) (params : list (string * param A)) :
  ~ acceptable s ks -> Forall (fun p => grid_of s (snd p)) params -> dist_gettuple params ks = params.
Proof.
  intros N F. unfold dist_gettuple. induction F as [|[n v] l H F IH]; [reflexivity|]. cbn [map]. f_equal; [|exact IH]. cbn [fst snd] in *. f_equal.
  unfold take_tuple, gettuple. destruct v as [a|v|f]; try reflexivity. cbn [grid_of] in H. pose proof (gettuple_array a ks) as G.
  destruct (nd_gettuple a ks) as [b|e]; cbn [rmap]; [|reflexivity]. exfalso. destruct G as (G & _). destruct H as [H|H]; rewrite H in G; [destruct G; congruence|contradiction].
Qed.

(** ** the posterior *)
Definition nd_take_tuple {A} (ks : list key_item) (a : nd A) : nd A := match nd_gettuple a ks with Ok b => b | Raise _ => a end.

Lemma within_at {A} (a : nd A) i : within (nd_shape a) i -> at_index i a = nd_entry a i.
Proof.
  intros W. unfold at_index. f_equal. unfold within in W.
  assert (G : forall s i, Forall2 lt i s -> proj (rev s) (rev i) = rev i).
  { clear. intros s i W.
    assert (R : forall s i, Forall2 lt i s -> proj s i = i).
    { clear. intros s i W. induction W as [|k d i s H W IH]; [reflexivity|]. cbn [proj]. rewrite IH. destruct (Nat.eqb_spec d 1) as [->|]; [|reflexivity]. f_equal. lia. }
    apply R. clear R. induction W as [|k d i s H W IH]; [constructor|]. cbn [rev]. apply Forall2_app; [exact IH|]. constructor; [exact H|constructor]. }
  rewrite G by exact W. apply rev_involutive.
Qed.

Lemma posterior_tuple {A} {NA : Num A} (U : Ufuncs A) f (args : list (nd A)) s ks :
  length args = arity f -> Forall (fun a => nd_shape a = [] \/ nd_shape a = s) args -> acceptable s ks ->
  exists out out', run_nd U f args = Ok out /\ run_nd U f (map (nd_take_tuple ks) args) = Ok out' /\
  forall i j, denotes s ks i j -> map (at_index i) out' = map (at_index j) out.
Proof.
  intros Hl F Ha. set (probe := mkNd s (fun _ => tt)). pose proof (gettuple_array probe ks) as Hp. cbn [nd_shape probe] in Hp.
  destruct (nd_gettuple probe ks) as [p|e] eqn:Ep; [|contradiction]. destruct Hp as (_ & Hw & _). set (t := nd_shape p) in *.
  assert (T : forall a : nd A, nd_shape a = [] \/ nd_shape a = s ->
    fits (nd_shape a) s /\ fits (nd_shape (nd_take_tuple ks a)) t /\ forall i j, denotes s ks i j -> at_index i (nd_take_tuple ks a) = at_index j a).
  { intros a [H|H].
    - assert (E : nd_take_tuple ks a = a) by (unfold nd_take_tuple, nd_gettuple; now rewrite H). rewrite E, H.
      split; [apply fits_nil_l|]. split; [apply fits_nil_l|]. intros i j _. unfold at_index. rewrite H. cbn. now destruct (rev i), (rev j).
    - pose proof (gettuple_array a ks) as G. pose proof (shape_only a (mkNd s (fun _ => nd_entry a [])) ks H) as S.
      assert (S' : rmap nd_shape (nd_gettuple a ks) = rmap nd_shape (nd_gettuple probe ks)).
      { rewrite S. unfold nd_gettuple, probe. cbn [nd_shape]. destruct s as [|d s']; [reflexivity|].
        destruct (expand _ ks) as [ks'|]; cbn [bind]; [|reflexivity]. now destruct (view _ ks') as [[? ?]|]. }
      rewrite Ep in S'. unfold nd_take_tuple. destruct (nd_gettuple a ks) as [b|e]; cbn [rmap] in S'; [|discriminate]. injection S' as S'.
      rewrite S', H in *. split; [apply fits_refl|]. split; [apply fits_refl|]. intros i j D. destruct G as (_ & G1 & G2). destruct (G2 i j D) as [W E].
      rewrite within_at by (rewrite S'; apply G1; now exists j). rewrite within_at by (now rewrite H). exact E. }
  destruct (run_nd_entrywise U f args s Hl) as (out & E & L & _ & G).
  { eapply Forall_impl; [|exact F]. intros a Ha'. destruct (T a Ha') as (T1 & T2 & _). assumption. }
  destruct (run_nd_entrywise U f (map (nd_take_tuple ks) args) t ltac:(now rewrite map_length)) as (out' & E' & L' & _ & G').
  { apply Forall_map. eapply Forall_impl; [|exact F]. intros a Ha'. destruct (T a Ha') as (T1 & T2 & _). assumption. }
  exists out, out'. split; [exact E|]. split; [exact E'|]. intros i j D. specialize (G j). specialize (G' i). rewrite map_map in G'.
  rewrite (map_ext_in (fun a => at_index i (nd_take_tuple ks a)) (at_index j) args) in G'; [congruence|].
  intros a Hin. rewrite Forall_forall in F. destruct (T a (F a Hin)) as (_ & _ & T3). now apply T3.
Qed.

(** ** parameters of different shapes *)
Lemma joint_two s t u : broadcast_shapes s t = Some u -> joint [s; t] u.
Proof.
  intros E. pose proof (bcast_joint s t) as B. rewrite E in B. destruct B as (B1 & B2 & B3). split.
  - constructor; [exact B1|]. constructor; [exact B2|constructor].
  - intros v F. inversion F as [|? ? F1 F']; subst. inversion F'; subst. now apply B3.
Qed.

Lemma broadcast_grid :
  exists (a b a' b' : nd R) (ks : list key_item) (i j : list nat),
  joint [nd_shape a; nd_shape b] [2; 2]%nat /\ acceptable [2; 2]%nat ks /\ denotes [2; 2]%nat ks i j /\
  dist_gettuple [("alpha"%string, PArr a); ("beta"%string, PArr b)] ks = [("alpha"%string, PArr a'); ("beta"%string, PArr b')] /\
  at_index i a' = at_index j a /\ joint [nd_shape a'; nd_shape b'] [2]%nat /\ at_index i b' <> at_index j b.
Proof.
  set (a := mkNd [2; 1]%nat (fun i => INR (nth 0 i 0%nat))). set (b := mkNd [2]%nat (fun i => INR (nth 0 i 0%nat))).
  eexists a, b, _, b, [whole; IInt 0], [1]%nat, [1; 0]%nat. split; [now apply joint_two|]. split.
  { split; [discriminate|]. split; [cbn; lia|]. cbn. apply suits_slice; [lia|]. apply suits_int; [cbn; lia|]. apply suits_dots_end, suits_end. }
  split.
  { unfold denotes. cbn. eapply reads_slice; [apply whole_selects|reflexivity|]. apply reads_int; [split; [lia|now left]|]. apply reads_dots_end, reads_end. }
  split; [reflexivity|]. split; [reflexivity|]. split; [now apply joint_two|]. cbn. apply R1_neq_R0.
Qed.

(** ** lists *)
Lemma gettuple_lists {A} (ks : list key_item) (params : list (string * param A)) :
  Forall2 (fun p q => fst q = fst p /\ forall l, snd p = PList l -> snd q = PList l) params (dist_gettuple params ks).
Proof. unfold dist_gettuple. induction params as [|[n v] l IH]; cbn [map]; constructor; [|exact IH]. cbn [fst snd]. split; [reflexivity|]. now intros m ->. Qed.
