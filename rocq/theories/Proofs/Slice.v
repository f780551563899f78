(** Indexing distributions. *)

From Coq Require Import ZArith Bool String List Sorted Lia.
From Verif Require Import Model.Num Model.Py Model.Table Model.NdArray Model.SliceModel Spec.Indexing Spec.Shapes.
Import ListNotations.

Lemma position_names m k i : position m k = Some i <-> names m k i.
Proof.
  unfold position, names. destruct (Z.leb_spec 0 k).
  - destruct (Z.ltb_spec k (Z.of_nat m)); split; intros E; try discriminate; try lia.
    + injection E as <-. lia.
    + f_equal. lia.
  - destruct (Z.leb_spec 0 (Z.of_nat m + k)); split; intros E; try discriminate; try lia.
    + injection E as <-. lia.
    + f_equal. lia.
Qed.

Lemma position_none m k : position m k = None <-> (k < - Z.of_nat m \/ Z.of_nat m <= k)%Z.
Proof.
  unfold position. destruct (Z.leb_spec 0 k).
  - destruct (Z.ltb_spec k (Z.of_nat m)); split; intros E; try discriminate; try lia; auto.
  - destruct (Z.leb_spec 0 (Z.of_nat m + k)); split; intros E; try discriminate; try lia; auto.
Qed.

Lemma positions_names m ks l : positions m ks = Some l <-> Forall2 (names m) ks l.
Proof.
  revert l. induction ks as [|k ks IH]; intros l; simpl.
  - split; intros H. injection H as <-. constructor. now inversion H.
  - destruct (position m k) as [p|] eqn:E.
    + destruct (positions m ks) as [ps|] eqn:E'.
      * split; intros H. injection H as <-. constructor. now apply position_names. now apply IH.
        inversion H as [|? q ? qs H1 H2]; subst. apply position_names in H1. apply IH in H2. congruence.
      * split; intros H. discriminate. inversion H as [|? q ? qs H1 H2]; subst. apply IH in H2. congruence.
    + split; intros H. discriminate. inversion H as [|? q ? qs H1 H2]; subst. apply position_names in H1. congruence.
Qed.

Lemma sorted_ext (R : nat -> nat -> Prop) : (forall x, ~ R x x) -> (forall x y z, R x y -> R y z -> R x z) ->
  forall l l', StronglySorted R l -> StronglySorted R l' -> (forall i, In i l <-> In i l') -> l = l'.
Proof.
  intros Irr Tr l. induction l as [|a l IH]; intros [|b l'] S S' H; auto.
  - exfalso. apply (proj2 (H b)). now left.
  - exfalso. apply (proj1 (H a)). now left.
  - inversion S as [|? ? Sl Fa]; subst. inversion S' as [|? ? Sl' Fb]; subst. rewrite Forall_forall in Fa, Fb.
    assert (a = b).
    { destruct (proj1 (H a) (or_introl eq_refl)) as [|Ha]; auto. destruct (proj2 (H b) (or_introl eq_refl)) as [|Hb]; auto.
      exfalso. apply (Irr a). apply (Tr a b a). now apply Fa. now apply Fb. }
    subst b. f_equal. apply IH; auto. intros i. split; intros Hi.
    + destruct (proj1 (H i) (or_intror Hi)) as [->|]; auto. exfalso. apply (Irr i). now apply Fa.
    + destruct (proj2 (H i) (or_intror Hi)) as [->|]; auto. exfalso. apply (Irr i). now apply Fb.
Qed.

Local Open Scope Z_scope.

Lemma range_in_pos fuel : forall i stop step x, 0 < step -> 0 <= i ->
  (In x (py_range fuel i stop step) <-> exists j : nat, (j < fuel)%nat /\ Z.of_nat x = i + Z.of_nat j * step /\ Z.of_nat x < stop).
Proof.
  induction fuel as [|fuel IH]; intros i stop step x Hs Hi; simpl.
  - split; [contradiction|]. intros (j & Hj & _). lia.
  - destruct (Z.ltb_spec 0 step); [|lia]. destruct (Z.ltb_spec i stop); simpl.
    + rewrite IH by lia. split.
      * intros [H1|(j & H1 & H2 & H3)]. exists 0%nat. lia. exists (S j). lia.
      * intros ([|j] & H1 & H2 & H3). left. lia. right. exists j. lia.
    + split; [contradiction|]. intros (j & H1 & H2 & H3). nia.
Qed.

Lemma range_in_neg fuel : forall i stop step x, step < 0 -> -1 <= stop ->
  (In x (py_range fuel i stop step) <-> exists j : nat, (j < fuel)%nat /\ Z.of_nat x = i + Z.of_nat j * step /\ stop < Z.of_nat x).
Proof.
  induction fuel as [|fuel IH]; intros i stop step x Hs Hi; simpl.
  - split; [contradiction|]. intros (j & Hj & _). lia.
  - destruct (Z.ltb_spec 0 step); [lia|]. destruct (Z.ltb_spec stop i); simpl.
    + rewrite IH by lia. split.
      * intros [H1|(j & H1 & H2 & H3)]. exists 0%nat. lia. exists (S j). lia.
      * intros ([|j] & H1 & H2 & H3). left. lia. right. exists j. lia.
    + split; [contradiction|]. intros (j & H1 & H2 & H3). nia.
Qed.

Lemma range_sorted_pos fuel : forall i stop step, 0 < step -> 0 <= i -> StronglySorted lt (py_range fuel i stop step).
Proof.
  induction fuel as [|fuel IH]; intros i stop step Hs Hi; simpl. constructor.
  destruct (Z.ltb_spec 0 step); [|lia]. destruct (Z.ltb_spec i stop); simpl; [|constructor].
  constructor. apply IH; lia. apply Forall_forall. intros x Hx. apply range_in_pos in Hx; [|lia|lia].
  destruct Hx as (j & _ & H2 & _). nia.
Qed.

Lemma range_sorted_neg fuel : forall i stop step, step < 0 -> -1 <= stop -> StronglySorted gt (py_range fuel i stop step).
Proof.
  induction fuel as [|fuel IH]; intros i stop step Hs Hi; simpl. constructor.
  destruct (Z.ltb_spec 0 step); [lia|]. destruct (Z.ltb_spec stop i); simpl; [|constructor].
  constructor. apply IH; lia. apply Forall_forall. intros x Hx. apply range_in_neg in Hx; [|lia|lia].
  destruct Hx as (j & _ & H2 & _). nia.
Qed.

Lemma mask_in b : forall k i, In i (map fst (filter snd (combine (seq k (length b)) b))) <-> (k <= i)%nat /\ nth (i - k) b false = true.
Proof.
  induction b as [|x b IH]; intros k i; simpl.
  - split; [contradiction|]. intros [_ H]. destruct (i - k)%nat; discriminate.
  - destruct x; simpl; rewrite IH; split.
    + intros [<-|[H1 H2]]. rewrite Nat.sub_diag. split; auto. split; [lia|]. replace (i - k)%nat with (S (i - S k)) by lia. auto.
    + intros [H1 H2]. destruct (Nat.eq_dec k i); auto. right. split; [lia|]. replace (i - k)%nat with (S (i - S k)) in H2 by lia. auto.
    + intros [H1 H2]. split; [lia|]. replace (i - k)%nat with (S (i - S k)) by lia. auto.
    + intros [H1 H2]. destruct (Nat.eq_dec k i). subst. rewrite Nat.sub_diag in H2. discriminate.
      split; [lia|]. replace (i - k)%nat with (S (i - S k)) in H2 by lia. auto.
Qed.

Lemma mask_sorted b : forall k, StronglySorted lt (map fst (filter snd (combine (seq k (length b)) b))).
Proof.
  induction b as [|x b IH]; intros k; simpl. constructor.
  destruct x; simpl; auto. constructor; auto. apply Forall_forall. intros i Hi. apply mask_in in Hi. lia.
Qed.

(** The positions the code selects are the specified ones. *)
Lemma select_spec m k l : selects m k l -> select m k = Ok l.
Proof.
  intros H. destruct H as [ks l H|b l Hb Hin Hs|start stop step l Hp Hs Hin|start stop step l Hp Hs Hin]; simpl.
  - apply positions_names in H. now rewrite H.
  - rewrite Hb, Nat.eqb_refl. f_equal. unfold mask_positions. apply (sorted_ext lt); auto; try lia.
    + apply mask_sorted.
    + intros i. rewrite mask_in, Hin, Nat.sub_0_r. split; [tauto|]. split; [lia|auto].
  - destruct (Z.eqb_spec step 0); [lia|]. f_equal. unfold slice_positions. set (dz := Z.of_nat m) in *.
    set (i := match start with Some v => clip dz step v | None => _ end).
    set (j := match stop with Some v => clip dz step v | None => _ end).
    assert (Ei : i = Z.min dz (Z.max 0 (bound m 0 start))).
    { unfold i, bound, clip. destruct (Z.ltb_spec 0 step); [|lia]. destruct start as [v|]; [|lia]. destruct (Z.ltb_spec v 0); lia. }
    assert (Ej : j = Z.min dz (Z.max 0 (bound m dz stop))).
    { unfold j, bound, clip. destruct (Z.ltb_spec 0 step); [|lia]. destruct stop as [v|]; [|lia]. destruct (Z.ltb_spec v 0); lia. }
    apply (sorted_ext lt); auto; try lia.
    + apply range_sorted_pos; lia.
    + intros x. rewrite range_in_pos by lia. rewrite Hin. set (f := Z.max 0 (bound m 0 start)) in *. split.
      * intros (q & H1 & H2 & H3). split; [lia|]. split; [nia|].
        replace (Z.of_nat x - f) with (Z.of_nat q * step) by nia. apply Z.mod_mul. lia.
      * intros (H1 & H2 & H3). apply Z.mod_divide in H3; [|lia]. destruct H3 as [q Hq]. exists (Z.to_nat q).
        assert (0 <= q) by nia. rewrite Z2Nat.id by lia. split; [nia|]. split; [nia|lia].
  - destruct (Z.eqb_spec step 0); [lia|]. f_equal. unfold slice_positions. set (dz := Z.of_nat m) in *.
    set (i := match start with Some v => clip dz step v | None => _ end).
    set (j := match stop with Some v => clip dz step v | None => _ end).
    assert (Ei : i = Z.max (-1) (Z.min (dz - 1) (bound m (dz - 1) start))).
    { unfold i, bound, clip. destruct (Z.ltb_spec 0 step); [lia|]. destruct start as [v|]; [|lia]. destruct (Z.ltb_spec v 0); lia. }
    assert (Ej : j = Z.max (-1) (Z.min (dz - 1) (bound m (-1) stop))).
    { unfold j, bound, clip. destruct (Z.ltb_spec 0 step); [lia|]. destruct stop as [v|]; [|lia]. destruct (Z.ltb_spec v 0); lia. }
    apply (sorted_ext gt); auto; try lia.
    + apply range_sorted_neg; lia.
    + intros x. rewrite range_in_neg by lia. rewrite Hin. set (f := Z.min (dz - 1) (bound m (dz - 1) start)) in *. split.
      * intros (q & H1 & H2 & H3). split; [nia|]. split; [nia|].
        replace (f - Z.of_nat x) with (Z.of_nat q * (- step)) by nia. apply Z.mod_mul. lia.
      * intros (H1 & H2 & H3). apply Z.mod_divide in H3; [|lia]. destruct H3 as [q Hq]. exists (Z.to_nat q).
        assert (0 <= q) by nia. rewrite Z2Nat.id by lia. split; [nia|]. split; [nia|lia].
Qed.

Lemma selects_lt m k l : selects m k l -> Forall (fun i => (i < m)%nat) l.
Proof.
  intros [ks l' H|b l' Hb Hin Hs|start stop step l' Hp Hs Hin|start stop step l' Hp Hs Hin].
  - induction H; constructor; auto. apply H.
  - apply Forall_forall. intros i Hi. apply Hin in Hi. destruct (Nat.lt_ge_cases i m); auto.
    rewrite nth_overflow in Hi by lia. discriminate.
  - apply Forall_forall. intros i Hi. now apply Hin in Hi.
  - apply Forall_forall. intros i Hi. now apply Hin in Hi.
Qed.

(** C34: integer keys *)
Lemma getitem_int {A} (d : A) m k i (params : list (string * param A)) :
  names m k i -> Forall (fun p => vector_of m (snd p)) params ->
  Forall2 (fun p q => fst q = fst p /\ vector_of 1 (snd q) /\
                      (forall j, member d j (snd q) = member d i (snd p)) /\
                      (forall b, snd p = PFlag b -> snd q = PFlag b))
    params (dist_getitem d params (KInt k)).
Proof.
  intros Hk F. apply position_names in Hk. unfold dist_getitem. induction F as [|[n v] ps Hv _ IH]; simpl; constructor; auto.
  simpl in *. split; auto. unfold take_slice, getitem. destruct v as [a|l|b]; simpl in *.
  - unfold nd_getitem. destruct Hv as [E|E]; rewrite E; simpl.
    + split; auto. split; [|discriminate]. now rewrite E.
    + rewrite Hk. simpl. split; auto. split; [|discriminate]. auto.
  - rewrite Hv, Hk. simpl. split; auto. split; [auto|discriminate].
  - auto.
Qed.

(** C34: keys that select several members *)
Lemma getitem_many {A} (d : A) m k l (params : list (string * param A)) :
  selects m k l -> Forall (fun p => vector_of m (snd p)) params ->
  (forall n v, In (n, PList v) params -> match k with KSlice _ _ _ => True | _ => False end) ->
  Forall2 (fun p q => fst q = fst p /\ vector_of (length l) (snd q) /\
                      (forall j, (j < length l)%nat -> member d j (snd q) = member d (nth j l 0%nat) (snd p)) /\
                      (forall b, snd p = PFlag b -> snd q = PFlag b))
    params (dist_getitem d params k).
Proof.
  intros Hk F HL. apply select_spec in Hk. unfold dist_getitem.
  assert (N : forall z, k <> KInt z) by (intros z ->; discriminate).
  induction F as [|[n v] ps Hv _ IH]; simpl; constructor; auto.
  2:{ apply IH. intros n' v' Hin. apply (HL n' v'). now right. }
  simpl in *. split; auto. unfold take_slice, getitem. destruct v as [a|v|b]; simpl in *.
  - unfold nd_getitem. destruct Hv as [E|E]; rewrite E; simpl.
    + split; auto. split; [|discriminate]. now rewrite E.
    + destruct k as [z|ks|mm|st sp se]; [now elim (N z)|..]; rewrite Hk; simpl; split; auto; split; auto; discriminate.
  - specialize (HL n v (or_introl eq_refl)). destruct k; try contradiction. unfold list_getitem. rewrite Hv, Hk. simpl.
    rewrite map_length. split; auto. split; [|discriminate]. intros j Hj. f_equal.
    rewrite nth_indep with (d' := nth 0 v d) by now rewrite map_length. now rewrite map_nth with (f := fun p => nth p v d).
  - auto.
Qed.

(** C35: a key out of range leaves every vector whole *)
Lemma getitem_out_of_range {A} (d : A) m k (params : list (string * param A)) :
  (k < - Z.of_nat m \/ Z.of_nat m <= k)%Z -> Forall (fun p => vector_of m (snd p)) params ->
  dist_getitem d params (KInt k) = params /\
  (forall ks, In k ks -> (forall n v, ~ In (n, PList v) params) -> dist_getitem d params (KList ks) = params).
Proof.
  intros Hk F. apply position_none in Hk.
  assert (K : forall ks, In k ks -> positions m ks = None).
  { induction ks as [|a ks IH]; simpl; intros H. contradiction. destruct H as [->|H]. now rewrite Hk.
    rewrite IH by auto. now destruct (position m a). }
  split; [|intros ks Hks HL]; unfold dist_getitem; induction F as [|[n v] ps Hv _ IH]; simpl; auto; f_equal; auto.
  - f_equal. simpl in Hv. unfold take_slice, getitem. destruct v as [a|l|b]; simpl; auto.
    + unfold nd_getitem. destruct Hv as [E|E]; rewrite E; simpl; auto. now rewrite Hk.
    + now rewrite Hv, Hk.
  - f_equal. simpl in Hv. unfold take_slice, getitem. destruct v as [a|l|b]; simpl; auto.
    unfold nd_getitem. destruct Hv as [E|E]; rewrite E; simpl; auto. now rewrite (K ks Hks).
  - apply IH. intros n' v' Hin. apply (HL n' v'). now right.
Qed.

(** ** Slicing commutes with the models *)
From Verif Require Import Spec.Defined Proofs.Param Proofs.Shapes.

(** The array kept or sliced, as [take_slice] does it. *)
Definition nd_take {A} (k : key) (a : nd A) : nd A := match nd_getitem a k with Ok b => b | Raise _ => a end.

Lemma fits_antisym s t : fits s t -> fits t s -> s = t.
Proof.
  unfold fits. intros H1 H2. rewrite <- (rev_involutive s), <- (rev_involutive t). f_equal.
  revert H1 H2. generalize (rev s) (rev t). clear. induction 1; intros H'; inversion H'; subst; auto. f_equal; [|auto].
  destruct H as [-> | ->]; auto. intuition.
Qed.

Lemma fits_refl s : fits s s.
Proof. unfold fits. generalize (rev s). induction l; constructor; auto. Qed.

Lemma fits_nil_l s : fits [] s.
Proof. constructor. Qed.

Lemma joint_unique l s t : joint l s -> joint l t -> s = t.
Proof. intros [H1 H2] [H3 H4]. apply fits_antisym; auto. Qed.

(** Shapes [] and [m]: the joint shape is [m] as soon as one of them occurs. *)
Lemma joint_two m (l : list (list nat)) : Forall (fun s => s = [] \/ s = [m]) l ->
  forall s, joint l s -> (s = [] /\ Forall (fun s => s = []) l) \/ (s = [m] /\ Exists (fun s => s = [m]) l).
Proof.
  intros F s J.
  assert (D : Forall (fun s => s = []) l \/ Exists (fun s => s = [m]) l).
  { clear J. induction F as [|x l [-> | ->] _ [IH|IH]]; auto. }
  destruct D as [D|D].
  - left. split; auto. apply joint_unique with (l := l); auto. split.
    + eapply Forall_impl; [|exact D]. simpl. intros ? ->. apply fits_refl.
    + intros. apply fits_nil_l.
  - right. split; auto. apply joint_unique with (l := l); auto. split.
    + eapply Forall_impl; [|exact F]. simpl. intros ? [-> | ->]. apply fits_nil_l. apply fits_refl.
    + intros u Hu. rewrite Forall_forall in Hu. apply Exists_exists in D. destruct D as (x & Hx & ->). auto.
Qed.

Definition scalar_or_vector {A} (m : nat) (a : nd A) : Prop := nd_shape a = [] \/ nd_shape a = [m].

Lemma out_shapes {A} {NA : Num A} (U : Ufuncs A) f (args out : list (nd A)) m :
  length args = arity f -> Forall (scalar_or_vector m) args -> run_nd U f args = Ok out ->
  Forall2 (fun a (p : list nat) => (nd_shape a = [] /\ Forall (fun s => s = []) (pick [] (map nd_shape args) p)) \/
                      (nd_shape a = [m] /\ Exists (fun s => s = [m]) (pick [] (map nd_shape args) p))) out (deps f).
Proof.
  intros Hl F E. pose proof (run_nd_joint U f args Hl) as J. simpl in J. rewrite E in J.
  assert (P : forall p, Forall (fun s => s = [] \/ s = [m]) (pick [] (map nd_shape args) p)).
  { intros p. unfold pick. apply Forall_map, Forall_forall. intros k _.
    destruct (Nat.lt_ge_cases k (length (map nd_shape args))) as [L|L].
    - destruct (proj1 (in_map_iff nd_shape args _) (nth_In _ [] L)) as (a & <- & Ha). rewrite Forall_forall in F. now apply F.
    - left. now apply nth_overflow. }
  revert J. generalize (deps f). clear - P. induction out as [|a out IH]; intros ds J; destruct ds as [|p ds]; inversion J; subst; constructor.
  - apply joint_two; auto.
  - apply IH. auto.
Qed.

Lemma at_index_nil {A} (a : nd A) i : nd_shape a = [] -> at_index i a = nd_entry a [].
Proof. intros E. unfold at_index. rewrite E. reflexivity. Qed.

Lemma at_index_vec {A} (a : nd A) m j : nd_shape a = [m] -> (j < m)%nat -> at_index [j] a = nd_entry a [j].
Proof.
  intros E Hj. unfold at_index. rewrite E. simpl. destruct (Nat.eqb_spec m 1); auto. do 2 f_equal. lia.
Qed.

Lemma take_int {A} m k i (a : nd A) : names m k i -> scalar_or_vector m a ->
  nd_shape (nd_take (KInt k) a) = [] /\ forall j, at_index j (nd_take (KInt k) a) = at_index [i] a.
Proof.
  intros Hk [E|E]; unfold nd_take, nd_getitem; rewrite E; simpl.
  - split; auto. intros j. now rewrite !at_index_nil.
  - rewrite (proj2 (position_names m k i) Hk). simpl. split; auto. intros j. destruct Hk.
    rewrite (at_index_vec a m i) by auto. reflexivity.
Qed.

Lemma take_many {A} m k l (a : nd A) : selects m k l -> scalar_or_vector m a ->
  (nd_shape a = [] -> nd_shape (nd_take k a) = []) /\ (nd_shape a = [m] -> nd_shape (nd_take k a) = [length l]) /\
  forall j, (j < length l)%nat -> at_index [j] (nd_take k a) = at_index [nth j l 0%nat] a.
Proof.
  intros Hk H. pose proof (selects_lt _ _ _ Hk) as Lt. rewrite Forall_forall in Lt.
  assert (N : forall z, k <> KInt z) by (intros z ->; inversion Hk). apply select_spec in Hk.
  destruct H as [E|E].
  - unfold nd_take, nd_getitem; rewrite E; simpl. split; auto. split; [discriminate|]. intros j _. now rewrite !at_index_nil.
  - assert (G : nd_getitem a k =
       Ok (mkNd [length l] (fun i => match i with j :: i' => nd_entry a (nth j l 0%nat :: i') | [] => nd_entry a [] end))).
    { unfold nd_getitem. rewrite E. destruct k; [now elim (N k)|..]; rewrite Hk; reflexivity. }
    unfold nd_take. rewrite G, E. split; [discriminate|]. split; auto. intros j Hj.
    rewrite (at_index_vec _ (length l) j) by auto. simpl. rewrite (at_index_vec a m) by (auto; apply Lt; now apply nth_In). reflexivity.
Qed.

Lemma sv_fits {A} m (args : list (nd A)) : Forall (scalar_or_vector m) args -> Forall (fun a => fits (nd_shape a) [m]) args.
Proof. apply Forall_impl. intros a [E|E]; rewrite E. apply fits_nil_l. apply fits_refl. Qed.

Lemma Forall2_map_eq {A B C} (f : A -> C) (g : B -> C) (R : A -> B -> Prop) l l' :
  Forall2 R l l' -> map f l = map g l' -> Forall2 (fun a b => R a b /\ f a = g b) l l'.
Proof. induction 1; intros E; simpl in *; constructor; injection E; auto. Qed.

Lemma deps_pair {A B C} (P : A -> C -> Prop) (Q : B -> C -> Prop) l l' ds :
  Forall2 P l ds -> Forall2 Q l' ds -> Forall2 (fun a b => exists p, P a p /\ Q b p) l l'.
Proof. intros H. revert l'. induction H; intros k H'; inversion H'; subst; constructor; eauto. Qed.


Lemma Forall2_weaken {A B} (P Q : A -> B -> Prop) l l' : (forall a b, P a b -> Q a b) -> Forall2 P l l' -> Forall2 Q l l'.
Proof. intros H. induction 1; constructor; auto. Qed.

(** C34: the posterior of the sliced inputs is the sliced posterior (integer keys) *)
Lemma slice_commutes_int {A} {NA : Num A} (U : Ufuncs A) f (args : list (nd A)) m k i :
  length args = arity f -> Forall (scalar_or_vector m) args -> names m k i ->
  exists out out', run_nd U f args = Ok out /\ run_nd U f (map (nd_take (KInt k)) args) = Ok out' /\
  Forall2 (fun a b => nd_shape a = [] /\ nd_shape b = [] /\ nd_entry a [] = nd_entry b [])
          out' (map (nd_take (KInt k)) out).
Proof.
  intros Hl F Hk.
  destruct (run_nd_entrywise U f args [m] Hl (sv_fits m args F)) as (out & E & L & _ & G).
  assert (T : forall a : nd A, scalar_or_vector m a -> nd_shape (nd_take (KInt k) a) = [] /\ forall j, at_index j (nd_take (KInt k) a) = at_index [i] a)
    by (intros; now apply (take_int m)).
  assert (F' : Forall (fun a => fits (nd_shape a) []) (map (nd_take (KInt k)) args)).
  { apply Forall_map. eapply Forall_impl; [|exact F]. intros a Ha. rewrite (proj1 (T a Ha)). apply fits_refl. }
  destruct (run_nd_entrywise U f (map (nd_take (KInt k)) args) [] ltac:(now rewrite map_length) F') as (out' & E' & L' & Fo & G').
  exists out, out'. split; auto. split; auto.
  specialize (G [i]). specialize (G' []). rewrite map_map in G'.
  assert (M : map (fun a => at_index [] (nd_take (KInt k) a)) args = map (at_index [i]) args).
  { apply map_ext_in. intros a Ha. rewrite Forall_forall in F. apply (T a (F a Ha)). }
  rewrite M, G in G'. injection G' as G'.
  pose proof (out_shapes U f args out m Hl F E) as S. clear - S G' Fo T L L'.
  assert (So : Forall (scalar_or_vector m) out).
  { clear - S. induction S as [|a p l ds [[H _]|[H _]] _ IH]; constructor; auto. now left. now right. }
  clear S L L'. revert out' Fo G'. induction So as [|a out Ha _ IH]; intros [|b out'] Fo G'; simpl in *; try discriminate; constructor.
  - injection G' as G1 G2. inversion Fo as [|? ? Fb Fo']; subst.
    assert (Eb : nd_shape b = []). { apply fits_antisym; auto. apply fits_nil_l. }
    destruct (T a Ha) as [T1 T2]. split; auto. split; auto.
    rewrite <- (at_index_nil b []) by auto. rewrite <- G1, <- (T2 []). now apply at_index_nil.
  - inversion Fo; subst. injection G' as G1 G2. apply IH; auto.
Qed.

(** C34: the same for keys that select several members *)
Lemma slice_commutes_many {A} {NA : Num A} (U : Ufuncs A) f (args : list (nd A)) m k l :
  length args = arity f -> Forall (scalar_or_vector m) args -> selects m k l ->
  exists out out', run_nd U f args = Ok out /\ run_nd U f (map (nd_take k) args) = Ok out' /\
  Forall2 (fun a b => nd_shape a = nd_shape b /\ scalar_or_vector (length l) b /\
                      forall j, (j < length l)%nat -> at_index [j] a = at_index [j] b)
          out' (map (nd_take k) out).
Proof.
  intros Hl F Hk.
  destruct (run_nd_entrywise U f args [m] Hl (sv_fits m args F)) as (out & E & L & _ & G).
  assert (T : forall a : nd A, scalar_or_vector m a ->
    (nd_shape a = [] -> nd_shape (nd_take k a) = []) /\ (nd_shape a = [m] -> nd_shape (nd_take k a) = [length l]) /\
    forall j, (j < length l)%nat -> at_index [j] (nd_take k a) = at_index [nth j l 0%nat] a)
    by (intros; now apply take_many).
  assert (SV : Forall (scalar_or_vector (length l)) (map (nd_take k) args)).
  { apply Forall_map. eapply Forall_impl; [|exact F]. intros a Ha. destruct (T a Ha) as (T1 & T2 & _).
    destruct Ha as [Ea|Ea]; [left|right]; auto. }
  assert (Hl' : length (map (nd_take k) args) = arity f) by now rewrite map_length.
  destruct (run_nd_entrywise U f (map (nd_take k) args) [length l] Hl' (sv_fits _ _ SV)) as (out' & E' & L' & _ & G').
  exists out, out'. split; auto. split; auto.
  pose proof (out_shapes U f args out m Hl F E) as S. pose proof (out_shapes U f _ out' (length l) Hl' SV E') as S'.
  assert (M : forall j, (j < length l)%nat -> map (at_index [j]) out' = map (at_index [nth j l 0%nat]) out).
  { intros j Hj. specialize (G [nth j l 0%nat]). specialize (G' [j]). rewrite map_map in G'.
    rewrite (map_ext_in (fun a => at_index [j] (nd_take k a)) (at_index [nth j l 0%nat]) args) in G'.
    - congruence.
    - intros a Ha. rewrite Forall_forall in F. now apply (T a (F a Ha)). }
  assert (Sh : Forall2 (fun a b => nd_shape a = nd_shape (nd_take k b) /\ scalar_or_vector m b) out' out).
  { pose proof (deps_pair _ _ _ _ _ S' S) as D. eapply Forall2_weaken; [|exact D]. clear - T F Hl. 
    intros a b (p & Ha & Hb).
    assert (Q : forall s s', (forall q : nd A, In q args -> nd_shape q = s -> nd_shape (nd_take k q) = s') ->
      (s = [] -> s' = []) ->
      forall x, nth x (map nd_shape args) [] = s -> nth x (map nd_shape (map (nd_take k) args)) [] = s').
    { intros s s' Hs H0 x Hx. destruct (Nat.lt_ge_cases x (length args)) as [Lx|Lx].
      - destruct (nth_error args x) as [q|] eqn:Eq.
        2:{ apply nth_error_None in Eq. lia. }
        rewrite map_map. rewrite nth_error_nth with (x := nd_shape (nd_take k q)).
        + apply Hs. eapply nth_error_In; eauto.
          rewrite nth_error_nth with (x := nd_shape q) in Hx; auto. rewrite nth_error_map, Eq. reflexivity.
        + rewrite nth_error_map, Eq. reflexivity.
      - rewrite nth_overflow in Hx by now rewrite map_length. rewrite nth_overflow by now rewrite !map_length. symmetry. auto. }
    assert (SVb : scalar_or_vector m b) by (destruct Hb as [[Hb _]|[Hb _]]; [left|right]; auto).
    destruct (T b SVb) as (Tb1 & Tb2 & _).
    split; auto.
    destruct Hb as [[Eb Pb]|[Eb Pb]].
    - rewrite (Tb1 Eb). destruct Ha as [[Ea _]|[Ea Pa]]; auto. exfalso.
      unfold pick in *. apply Exists_exists in Pa. destruct Pa as (x & Hx & ->). apply in_map_iff in Hx. destruct Hx as (y & Hy & Hin).
      rewrite Forall_map, Forall_forall in Pb. specialize (Pb y Hin).
      rewrite (Q [] []) in Hy; auto; try discriminate.
      intros q Hq Eq. rewrite Forall_forall in F. now apply (T q (F q Hq)).
    - rewrite (Tb2 Eb). destruct Ha as [[Ea Pa]|[Ea _]]; auto. exfalso.
      unfold pick in *. apply Exists_exists in Pb. destruct Pb as (x & Hx & ->). apply in_map_iff in Hx. destruct Hx as (y & Hy & Hin).
      rewrite Forall_map, Forall_forall in Pa. specialize (Pa y Hin).
      rewrite (Q [m] [length l]) in Pa; auto; try discriminate.
      intros q Hq Eq. rewrite Forall_forall in F. now apply (T q (F q Hq)). }
  clear - Sh M T. induction Sh as [|a b out' out [H1 H2] _ IH]; simpl; constructor.
  - split; auto. destruct (T b H2) as (T1 & T2 & T3). split.
    + destruct H2; [left|right]; auto.
    + intros j Hj. rewrite (T3 j Hj). specialize (M j Hj). simpl in M. congruence.
  - apply IH. intros j Hj. specialize (M j Hj). simpl in M. congruence.
Qed.
