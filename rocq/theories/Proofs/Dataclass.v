(** Proofs about the constructors and [==] of the dataclasses. *)

From Coq Require Import ZArith Bool String Permutation Reals Lra Lia.
From Verif Require Import Model.Num Model.Py Model.Table Model.NdArray Model.SliceModel Model.PlotModel Model.Dataclass Spec.Dataclass.
From Coq Require Import List.
Import ListNotations.
Open Scope string_scope.
Open Scope list_scope.

Lemma keyword_in name kw v : keyword name kw = Some v -> In (name, v) kw.
Proof.
  unfold keyword. destruct (find _ kw) as [[n w]|] eqn:E; [|discriminate]. intros [= ->]. apply find_some in E. destruct E as [H E].
  simpl in E. apply String.eqb_eq in E. now subst n.
Qed.
Lemma keyword_none name kw : keyword name kw = None <-> forall v, ~ In (name, v) kw.
Proof.
  unfold keyword. destruct (find _ kw) as [[n w]|] eqn:E; simpl; split; try discriminate.
  - intros H. apply find_some in E. destruct E as [Hin E]. simpl in E. apply String.eqb_eq in E. subst n. now destruct (H w).
  - intros _ v Hin. apply (find_none _ _ E) in Hin. simpl in Hin. now rewrite String.eqb_refl in Hin.
  - reflexivity.
Qed.
Lemma keyword_unique name kw v : NoDup (map fst kw) -> In (name, v) kw -> keyword name kw = Some v.
Proof.
  intros N Hin. destruct (keyword name kw) as [w|] eqn:E.
  - apply keyword_in in E. f_equal. clear -N E Hin. induction kw as [|[k u] kw IH]; [contradiction|]. inversion N as [|? ? Hn N']; subst.
    destruct Hin as [Hin|Hin], E as [E|E].
    + congruence.
    + injection Hin as -> ->. destruct Hn. apply in_map_iff. now exists (name, w).
    + injection E as -> ->. destruct Hn. apply in_map_iff. now exists (name, v).
    + now apply IH.
  - rewrite keyword_none in E. now destruct (E v).
Qed.

(** ** The constructor *)
Lemma fill_spec kw : NoDup (map fst kw) -> forall fields args vs,
  fill fields args kw = Ok vs <->
  (length args <= length fields)%nat /\
  (forall j name d, nth_error fields j = Some (name, d) -> (j < length args)%nat -> forall v, ~ In (name, v) kw) /\
  (forall j name, nth_error fields j = Some (name, None) -> (j < length args)%nat \/ exists v, In (name, v) kw) /\
  length vs = length fields /\
  (forall j name d, nth_error fields j = Some (name, d) -> exists v, nth_error vs j = Some (name, v) /\ receives args kw j name d v).
Proof.
  intros N. induction fields as [|[name d] fields IH]; intros args vs.
  - destruct args as [|a args]; simpl.
    + split.
      * intros [= <-]. repeat split; auto; intros [|j]; discriminate.
      * intros (_ & _ & _ & L & _). destruct vs; [reflexivity|discriminate].
    + split; [discriminate|]. intros (L & _). simpl in L. lia.
  - destruct args as [|a args]; simpl.
    + destruct (keyword name kw) as [v|] eqn:Ek; [|destruct d as [v|]].
      * destruct (fill fields [] kw) as [rest|e] eqn:Ef; cbn [bind].
        -- apply IH in Ef as Hf. destruct Hf as (_ & H2 & H3 & H4 & H5). split.
           ++ intros [= <-]. split; [simpl; lia|]. split; [intros j n d' _ Hj; simpl in Hj; lia|]. split.
              ** intros [|j] n Hj; [injection Hj as <- ->; right; exists v; now apply keyword_in|destruct (H3 j n Hj) as [Hl|Hl]; [simpl in Hl; lia|now right]].
              ** split; [simpl; now rewrite H4|]. intros [|j] n d' Hj.
                 { injection Hj as <- <-. exists v. split; [reflexivity|]. right; left. split; [reflexivity|now apply keyword_in]. }
                 { destruct (H5 j n d' Hj) as (w & Hw & R). exists w. split; [exact Hw|]. destruct j; exact R. }
           ++ intros (_ & _ & _ & L & H). destruct vs as [|[n0 v0] vs]; [discriminate|]. f_equal. f_equal.
              ** destruct (H 0%nat name d eq_refl) as (w & Hw & R). injection Hw as -> ->. f_equal.
                 destruct R as [R|[[_ R]|[_ [R _]]]]; [discriminate|rewrite (keyword_unique _ _ _ N R) in Ek; congruence|].
                 apply keyword_in in Ek. now destruct (R v).
              ** assert (Ef' : fill fields [] kw = Ok vs); [|congruence].
                 apply IH. split; [simpl; lia|]. split; [intros j n d' _ Hj; simpl in Hj; lia|]. split; [exact H3|].
                 split; [simpl in L; lia|]. intros j n d' Hj. destruct (H (S j) n d' Hj) as (w & Hw & R).
                 exists w. split; [exact Hw|]. destruct j; exact R.
        -- split; [discriminate|]. intros (_ & _ & H3 & L & H). destruct vs as [|v0 vs]; [discriminate|].
           assert (Ef' : fill fields [] kw = Ok vs); [|congruence].
           apply IH. split; [simpl; lia|]. split; [intros j n d' _ Hj; simpl in Hj; lia|].
           split; [intros j n Hj; destruct (H3 (S j) n Hj) as [Hl|Hl]; [simpl in Hl; lia|now right]|].
           split; [simpl in L; lia|]. intros j n d' Hj. destruct (H (S j) n d' Hj) as (w & Hw & R).
           exists w. split; [exact Hw|]. destruct j; exact R.
      * assert (Hk := proj1 (keyword_none _ _) Ek).
        destruct (fill fields [] kw) as [rest|e] eqn:Ef; cbn [bind].
        -- apply IH in Ef as Hf. destruct Hf as (_ & H2 & H3 & H4 & H5). split.
           ++ intros [= <-]. split; [simpl; lia|]. split; [intros j n d' _ Hj; simpl in Hj; lia|]. split.
              ** intros [|j] n Hj; [discriminate|destruct (H3 j n Hj) as [Hl|Hl]; [simpl in Hl; lia|now right]].
              ** split; [simpl; now rewrite H4|]. intros [|j] n d' Hj.
                 { injection Hj as <- <-. exists v. split; [reflexivity|]. right; right. auto. }
                 { destruct (H5 j n d' Hj) as (w & Hw & R). exists w. split; [exact Hw|]. destruct j; exact R. }
           ++ intros (_ & _ & _ & L & H). destruct vs as [|[n0 v0] vs]; [discriminate|]. f_equal. f_equal.
              ** destruct (H 0%nat name _ eq_refl) as (w & Hw & R). injection Hw as -> ->. f_equal.
                 destruct R as [R|[[_ R]|[_ [_ R]]]]; [discriminate|now destruct (Hk w)|congruence].
              ** assert (Ef' : fill fields [] kw = Ok vs); [|congruence].
                 apply IH. split; [simpl; lia|]. split; [intros j n d' _ Hj; simpl in Hj; lia|]. split; [exact H3|].
                 split; [simpl in L; lia|]. intros j n d' Hj. destruct (H (S j) n d' Hj) as (w & Hw & R).
                 exists w. split; [exact Hw|]. destruct j; exact R.
        -- split; [discriminate|]. intros (_ & _ & H3 & L & H). destruct vs as [|v0 vs]; [discriminate|].
           assert (Ef' : fill fields [] kw = Ok vs); [|congruence].
           apply IH. split; [simpl; lia|]. split; [intros j n d' _ Hj; simpl in Hj; lia|].
           split; [intros j n Hj; destruct (H3 (S j) n Hj) as [Hl|Hl]; [simpl in Hl; lia|now right]|].
           split; [simpl in L; lia|]. intros j n d' Hj. destruct (H (S j) n d' Hj) as (w & Hw & R).
           exists w. split; [exact Hw|]. destruct j; exact R.
      * split; [discriminate|]. intros (_ & _ & H3 & _). destruct (H3 0%nat name eq_refl) as [Hl|[v Hv]]; [simpl in Hl; lia|].
        rewrite keyword_none in Ek. now destruct (Ek v).
    + destruct (keyword name kw) as [v|] eqn:Ek.
      * split; [discriminate|]. intros (_ & H2 & _). destruct (H2 0%nat name d eq_refl ltac:(simpl; lia) v). now apply keyword_in.
      * assert (Hk := proj1 (keyword_none _ _) Ek). destruct (fill fields args kw) as [rest|e] eqn:Ef; cbn [bind].
        -- apply IH in Ef as Hf. destruct Hf as (H1 & H2 & H3 & H4 & H5). split.
           ++ intros [= <-]. split; [simpl; lia|]. split.
              ** intros [|j] n d' Hj Hl; [injection Hj as <- <-; exact Hk|exact (H2 j n d' Hj ltac:(simpl in Hl; lia))].
              ** split; [intros [|j] n Hj; [left; simpl; lia|destruct (H3 j n Hj) as [Hl|Hl]; [left; simpl; lia|now right]]|].
                 split; [simpl; now rewrite H4|]. intros [|j] n d' Hj.
                 { injection Hj as <- <-. exists a. split; [reflexivity|]. now left. }
                 { destruct (H5 j n d' Hj) as (w & Hw & R). exists w. split; [exact Hw|exact R]. }
           ++ intros (L0 & _ & _ & L & H). destruct vs as [|[n0 v0] vs]; [discriminate|]. f_equal. f_equal.
              ** destruct (H 0%nat name d eq_refl) as (w & Hw & R). injection Hw as -> ->. f_equal.
                 destruct R as [R|[[R _]|[R _]]]; try discriminate R. now injection R.
              ** assert (Ef' : fill fields args kw = Ok vs); [|congruence].
                 apply IH. split; [simpl in L0; lia|]. split; [exact H2|]. split; [exact H3|].
                 split; [simpl in L; lia|]. intros j n d' Hj. exact (H (S j) n d' Hj).
        -- split; [discriminate|]. intros (L0 & H2 & H3 & L & H). destruct vs as [|v0 vs]; [discriminate|].
           assert (Ef' : fill fields args kw = Ok vs); [|congruence].
           apply IH. split; [simpl in L0; lia|]. split; [intros j n d' Hj Hl; exact (H2 (S j) n d' Hj ltac:(simpl; lia))|].
           split; [intros j n Hj; destruct (H3 (S j) n Hj) as [Hl|Hl]; [left; simpl in Hl; lia|now right]|].
           split; [simpl in L; lia|]. intros j n d' Hj. exact (H (S j) n d' Hj).
Qed.
Lemma fill_total fields : forall args kw, (exists vs, fill fields args kw = Ok vs) \/ exists m, fill fields args kw = Raise (TypeError m).
Proof.
  induction fields as [|[name d] fields IH]; intros [|a args] kw; simpl; eauto.
  - destruct (keyword name kw); [|destruct d; eauto]; destruct (IH [] kw) as [[vs ->]|[m ->]]; simpl; eauto.
  - destruct (keyword name kw); eauto. destruct (IH args kw) as [[vs ->]|[m ->]]; simpl; eauto.
Qed.
Lemma init_spec fields args kw vs : NoDup (map fst kw) -> NoDup (map fst fields) ->
  init fields args kw = Ok vs <->
  well_formed fields args kw /\ length vs = length fields /\
  (forall j name d, nth_error fields j = Some (name, d) -> exists v, nth_error vs j = Some (name, v) /\ receives args kw j name d v).
Proof.
  intros N Nf. unfold init. destruct (forallb _ kw) eqn:E.
  - rewrite forallb_forall in E. rewrite (fill_spec kw N). unfold well_formed. split.
    + intros (H1 & H2 & H3 & H4 & H5). refine (conj (conj H1 (conj _ H3)) (conj H4 H5)).
      intros k v Hin. specialize (E _ Hin). apply existsb_exists in E. destruct E as ([n d] & Hf & En). simpl in En. apply String.eqb_eq in En. subst n.
      apply In_nth_error in Hf. destruct Hf as [j Hj]. exists j, d. split; [exact Hj|].
      destruct (le_lt_dec (length args) j) as [Hl|Hl]; [exact Hl|]. now destruct (H2 j k d Hj Hl v).
    + intros ((H1 & H2 & H3) & H4 & H5). refine (conj H1 (conj _ (conj H3 (conj H4 H5)))).
      intros j name d Hj Hl v Hin. destruct (H2 name v Hin) as (j' & d' & Hj' & Hl').
      assert (j = j'); [|lia]. apply (proj1 (NoDup_nth_error (map fst fields)) Nf).
      * rewrite map_length. apply nth_error_Some. intros Z. congruence.
      * rewrite !nth_error_map, Hj, Hj'. reflexivity.
  - split; [discriminate|]. intros ((_ & H2 & _) & _). apply not_true_iff_false in E. destruct E. apply forallb_forall.
    intros [k v] Hin. destruct (H2 k v Hin) as (j & d & Hj & _). apply existsb_exists. exists (k, d). split; [now apply nth_error_In in Hj|apply String.eqb_refl].
Qed.
Lemma init_total fields args kw : (exists vs, init fields args kw = Ok vs) \/ exists m, init fields args kw = Raise (TypeError m).
Proof. unfold init. destruct (forallb _ kw); [apply fill_total|eauto]. Qed.

(** ** Calls of the classes *)
Definition names_checked : bool :=
  forallb (fun p => forallb (fun q => implb (String.eqb (fst p) (fst q))
    (if list_eq_dec string_dec (map fst (snd q)) (snd p) then true else false)) dataclasses &&
    existsb (fun q => String.eqb (fst p) (fst q)) dataclasses) documented.
Lemma find_class c names : In (c, names) documented ->
  exists fields, find (fun p => String.eqb (fst p) c) dataclasses = Some (c, fields) /\ map fst fields = names /\ NoDup names.
Proof.
  intros H. simpl in H.
  repeat match type of H with _ \/ _ => destruct H as [H|H] | _ = _ => injection H as <- <- | False => contradiction end;
    eexists; (split; [reflexivity|split; [reflexivity|repeat (constructor; [simpl; intuition discriminate|]); constructor]]).
Qed.
Lemma nth_error_combine {B C} (l : list B) (m : list C) j b c : nth_error l j = Some b -> nth_error m j = Some c -> nth_error (combine l m) j = Some (b, c).
Proof. revert m j. induction l as [|x l IH]; intros [|y m] [|j]; simpl; try discriminate; [congruence|apply IH]. Qed.
Lemma nth_error_skipn {B} (l : list B) k j : nth_error (skipn k l) j = nth_error l (k + j).
Proof. revert l. induction k; intros [|x l]; simpl; auto. now destruct j. Qed.

Lemma post_init_ok c values : NoDup (map fst values) -> one_precision c values -> post_init c values = Ok (mkDobj c values).
Proof.
  intros N H. unfold post_init. destruct (String.eqb c "NormalInverseGamma") eqn:E; [|reflexivity].
  apply String.eqb_eq in E. destruct (H E) as [[H1 (i & p & H2)]|[H1 (i & p & H2)]];
    rewrite (keyword_unique _ _ _ N H1), (keyword_unique _ _ _ N H2); reflexivity.
Qed.
Lemma post_init_bad values : NoDup (map fst values) -> In "delta_inverse" (map fst values) -> In "nu" (map fst values) ->
  ~ one_precision "NormalInverseGamma" values -> exists m, post_init "NormalInverseGamma" values = Raise (ValueError m).
Proof.
  intros N Hd Hn H. apply in_map_iff in Hd. destruct Hd as ([n1 d] & E1 & Hd). simpl in E1. subst n1.
  apply in_map_iff in Hn. destruct Hn as ([n2 nu] & E2 & Hn). simpl in E2. subst n2.
  unfold post_init. rewrite String.eqb_refl.
  rewrite (keyword_unique _ _ _ N Hd), (keyword_unique _ _ _ N Hn).
  destruct d as [|i p], nu as [|j q]; cbn; eauto; destruct H; intros _; [left|right]; split; eauto.
Qed.

Lemma construct_documented c names values k kw :
  In (c, names) documented -> length values = length names -> Permutation kw (skipn k (combine names values)) ->
  one_precision c (combine names values) ->
  instantiate c (firstn k values) kw = Ok (mkDobj c (combine names values)).
Proof.
  intros Hc L P H1. destruct (find_class c names Hc) as (fields & Ef & En & Nn). unfold instantiate. rewrite Ef.
  assert (Nc : NoDup (map fst (combine names values))).
  { replace (map fst (combine names values)) with names; [exact Nn|]. clear -L. revert values L. induction names; intros [|v vs]; simpl; intros L; try discriminate; [reflexivity|]. f_equal. apply IHnames. congruence. }
  assert (Nk : NoDup (map fst kw)).
  { apply (Permutation_NoDup (Permutation_sym (Permutation_map fst P))). rewrite <- (firstn_skipn k (combine names values)) in Nc.
    rewrite map_app in Nc. clear -Nc. induction (map fst (firstn k (combine names values))); [exact Nc|]. inversion Nc; auto. }
  assert (E : init fields (firstn k values) kw = Ok (combine names values)).
  { apply init_spec; [exact Nk|now rewrite En|]. assert (Lf : length fields = length names) by (rewrite <- En; now rewrite map_length).
    assert (V : forall j name d, nth_error fields j = Some (name, d) -> exists v, nth_error values j = Some v /\ nth_error names j = Some name).
    { intros j name d Hj. assert (Hj' : nth_error names j = Some name) by (rewrite <- En, nth_error_map, Hj; reflexivity).
      destruct (nth_error values j) as [v|] eqn:Ev; [eauto|]. apply nth_error_None in Ev.
      assert (j < length names)%nat by (apply nth_error_Some; congruence). lia. }
    assert (K : forall j name v, (k <= j)%nat -> nth_error names j = Some name -> nth_error values j = Some v -> In (name, v) kw).
    { intros j name v Hl Hn Hv. apply (Permutation_in _ (Permutation_sym P)). apply nth_error_In with (j - k)%nat.
      rewrite nth_error_skipn. replace (k + (j - k))%nat with j by lia. now apply nth_error_combine. }
    split; [split; [rewrite firstn_length; lia|split]|split].
    - intros key v Hin. apply (Permutation_in _ P) in Hin. apply In_nth_error in Hin. destruct Hin as [j Hj]. rewrite nth_error_skipn in Hj.
      assert (Hn : nth_error names (k + j) = Some key).
      { clear -Hj. revert values Hj. generalize (k + j)%nat. induction names as [|x l IH]; intros [|m] [|y vs]; simpl; try discriminate; [congruence|apply IH]. }
      rewrite <- En, nth_error_map in Hn. destruct (nth_error fields (k + j)) as [[n d]|] eqn:Ej; [|discriminate].
      injection Hn as <-. exists (k + j)%nat, d. split; [exact Ej|]. rewrite firstn_length. lia.
    - intros j name Hj. destruct (V j name _ Hj) as (v & Hv & Hn). destruct (le_lt_dec k j) as [Hl|Hl]; [right; eauto|].
      left. rewrite firstn_length. assert (j < length values)%nat by (apply nth_error_Some; congruence). lia.
    - rewrite combine_length. lia.
    - intros j name d Hj. destruct (V j name _ Hj) as (v & Hv & Hn). exists v. split; [now apply nth_error_combine|].
      destruct (le_lt_dec k j) as [Hl|Hl].
      + right; left. split; [apply nth_error_None; rewrite firstn_length; lia|]. exact (K j name v Hl Hn Hv).
      + left. clear -Hl Hv. revert values j Hl Hv. induction k as [|k IH]; intros [|y vs] [|j] Hl Hv; simpl in *; try discriminate; try lia; [exact Hv|].
        apply IH; [lia|exact Hv]. }
  rewrite E. cbn [bind]. now apply post_init_ok.
Qed.

(** ** Equality *)
Lemma eqR_refl x : eqR x x = true.
Proof. unfold eqR. now destruct (Req_EM_T x x). Qed.
Lemma eqR_iff x y : eqR x y = true <-> x = y.
Proof. unfold eqR. destruct (Req_EM_T x y); split; congruence. Qed.
Lemma eq_list_iff l m : eq_list l m = true <-> l = m.
Proof.
  unfold eq_list. revert m. induction l as [|x l IH]; intros [|y m]; simpl; split; try discriminate; auto.
  - intros H. apply andb_true_iff in H. destruct H as [L H]. apply andb_true_iff in H. destruct H as [E H].
    apply eqR_iff in E. subst. f_equal. apply IH. now rewrite L.
  - intros [= -> ->]. rewrite eqR_refl. simpl. now apply IH.
Qed.
Lemma eq_self l : eq_tuple l l = Ok true.
Proof. induction l as [|[|i p] l IH]; simpl; auto. now rewrite Nat.eqb_refl. Qed.

Lemma eq_scalars r s : eq_arrays (scalar r) (scalar s) = Ok (eqR r s).
Proof. reflexivity. Qed.
Lemma decided (c : bool) (P : Prop) : (c = true <-> P) -> exists b, @Ok bool c = Ok b /\ (b = true <-> P).
Proof. eauto. Qed.
Lemma eq_plain v w x y : is_plain v x -> is_plain w y -> (forall i p q, v = VParam i p -> w = VParam i q -> p = q) ->
  exists b, eq_value v w = Ok b /\ (b = true <-> same_plain x y).
Proof.
  intros Hv Hw C.
  assert (D : forall i j p q, v = VParam i p -> w = VParam j q -> p <> q -> Nat.eqb i j = false).
  { intros i j p q Ev Ew Hd. apply Nat.eqb_neq. intros ->. exact (Hd (C _ _ _ Ev Ew)). }
  assert (T : forall i j p q, v = VParam i p -> w = VParam j q -> i = j \/ Nat.eqb i j = false).
  { intros i j p q _ _. destruct (Nat.eqb_spec i j); auto. }
  destruct x as [r|b| |l], y as [s|c| |m]; simpl in Hv, Hw; (match type of Hv with ex _ => destruct Hv as [i Hv] | _ => idtac end); (match type of Hw with ex _ => destruct Hw as [j Hw] | _ => idtac end); subst v w; cbn [eq_value eq_none same_plain].
  - destruct (T _ _ _ _ eq_refl eq_refl) as [->|E].
    + rewrite Nat.eqb_refl. pose proof (f_equal (fun p => match p with PArr a => nd_entry a [] | _ => 0%R end) (C _ _ _ eq_refl eq_refl)) as Hr.
      cbn in Hr. subst s. apply decided. now split.
    + rewrite E. cbn [eq_params]. rewrite eq_scalars. apply decided. rewrite eqR_iff. split; [now intros ->|congruence].
  - rewrite (D _ _ _ _ eq_refl eq_refl) by discriminate. cbn [eq_params]. rewrite eq_scalars. apply decided. rewrite eqR_iff. unfold flag_number. split; congruence.
  - apply decided. split; [discriminate|discriminate].
  - rewrite (D _ _ _ _ eq_refl eq_refl) by discriminate. cbn. apply decided. split; discriminate.
  - rewrite (D _ _ _ _ eq_refl eq_refl) by discriminate. cbn [eq_params]. rewrite eq_scalars. apply decided. rewrite eqR_iff. unfold flag_number. split; congruence.
  - destruct (T _ _ _ _ eq_refl eq_refl) as [->|E].
    + rewrite Nat.eqb_refl. specialize (C _ _ _ eq_refl eq_refl). injection C as ->. apply decided. now split.
    + rewrite E. cbn [eq_params]. apply decided. rewrite eqb_true_iff. split; [now intros ->|congruence].
  - apply decided. split; discriminate.
  - rewrite (D _ _ _ _ eq_refl eq_refl) by discriminate. apply decided. split; discriminate.
  - apply decided. split; discriminate.
  - apply decided. split; discriminate.
  - apply decided. now split.
  - apply decided. split; discriminate.
  - rewrite (D _ _ _ _ eq_refl eq_refl) by discriminate. apply decided. split; discriminate.
  - rewrite (D _ _ _ _ eq_refl eq_refl) by discriminate. apply decided. split; discriminate.
  - apply decided. split; discriminate.
  - destruct (T _ _ _ _ eq_refl eq_refl) as [->|E].
    + rewrite Nat.eqb_refl. specialize (C _ _ _ eq_refl eq_refl). injection C as ->. apply decided. now split.
    + rewrite E. cbn [eq_params]. apply decided. rewrite eq_list_iff. split; [now intros ->|congruence].
Qed.

Lemma eq_tuple_plain l m xs ys : Forall2 is_plain l xs -> Forall2 is_plain m ys -> length l = length m ->
  (forall i p q, In (VParam i p) (l ++ m) -> In (VParam i q) (l ++ m) -> p = q) ->
  exists b, eq_tuple l m = Ok b /\ (b = true <-> Forall2 same_plain xs ys).
Proof.
  intros F. revert m ys. induction F as [|v x l xs Hv F IH]; intros m ys G L C.
  - destruct m; [|discriminate]. inversion G; subst. apply decided. split; [constructor|reflexivity].
  - destruct m as [|w m]; [discriminate|]. inversion G as [|? y ? ys' Hw G']; subst.
    destruct (eq_plain v w x y Hv Hw) as (b & Eb & Hb).
    { intros i p q -> ->. apply (C i); [now left|]. apply in_or_app. right. now left. }
    cbn [eq_tuple]. rewrite Eb. cbn [bind]. destruct b.
    + destruct (IH m ys' G' ltac:(simpl in L; lia)) as (b' & Eb' & Hb').
      { intros i p q H1 H2. apply (C i); apply in_app_or in H1; apply in_app_or in H2; simpl; rewrite in_app_iff; simpl; tauto. }
      exists b'. split; [exact Eb'|]. rewrite Hb'. split; [intros H; constructor; [now apply Hb|exact H]|now inversion 1].
    + apply decided. split; [discriminate|]. inversion 1; subst. apply Hb. assumption.
Qed.
Lemma eq_objects_plain o o' xs ys : Forall2 is_plain (map snd (d_values o)) xs -> Forall2 is_plain (map snd (d_values o')) ys ->
  (d_class o = d_class o' -> map fst (d_values o) = map fst (d_values o')) -> coherent o o' ->
  exists b, eq_objects o o' = Ok b /\ (b = true <-> d_class o = d_class o' /\ Forall2 same_plain xs ys).
Proof.
  intros F G L C. unfold eq_objects. destruct (String.eqb_spec (d_class o) (d_class o')) as [E|E].
  - specialize (L E). destruct (eq_tuple_plain _ _ xs ys F G) as (b & Eb & Hb).
    + rewrite !map_length. now rewrite <- (map_length fst), L, map_length.
    + intros i p q H1 H2. rewrite <- map_app in H1, H2. exact (C i p q H1 H2).
    + exists b. split; [exact Eb|]. rewrite Hb. tauto.
  - apply decided. split; [discriminate|tauto].
Qed.

(** Arrays *)
Lemma truth_ambiguous n (f : list nat -> bool) : (2 <= n)%nat -> exists m, truth [n] f = Raise (ValueError m).
Proof. intros H. unfold truth. destruct n as [|[|n]]; [lia|lia|]. cbn. eauto. Qed.
Lemma eq_vectors_raise n f g i j : (2 <= n)%nat -> i <> j -> exists m, eq_value (VParam i (PArr (mkNd [n] f))) (VParam j (PArr (mkNd [n] g))) = Raise (ValueError m).
Proof.
  intros H Hd. cbn [eq_value]. rewrite (proj2 (Nat.eqb_neq i j) Hd). cbn [eq_params]. unfold eq_arrays, broadcast_shapes. cbn. rewrite Nat.eqb_refl. cbn.
  now apply truth_ambiguous.
Qed.

(** A list against a vector *)
Lemma eq_list_vector l n f i j : i <> j ->
  let compare := eq_value (VParam i (PList l)) (VParam j (PArr (mkNd [n] f))) in
  eq_value (VParam j (PArr (mkNd [n] f))) (VParam i (PList l)) = compare /\
  (length l = 1%nat -> n = 1%nat -> exists b, compare = Ok b /\ (b = true <-> l = [f [0%nat]])) /\
  ((length l <= 1)%nat -> (n <= 1)%nat -> (length l = 0 \/ n = 0)%nat -> compare = Ok false) /\
  ((2 <= length l)%nat \/ (2 <= n)%nat -> exists m, compare = Raise (ValueError m)).
Proof.
  intros Hd compare. subst compare. cbn [eq_value]. rewrite (proj2 (Nat.eqb_neq i j) Hd), (proj2 (Nat.eqb_neq j i) (not_eq_sym Hd)). cbn [eq_params nd_shape].
  split; [reflexivity|]. unfold eq_arrays, broadcast_shapes. cbn [nd_shape list_array rev app bc]. split; [|split].
  - destruct l as [|x [|y l]]; try discriminate. intros _ ->. cbn. apply decided. unfold at_index. cbn. rewrite eqR_iff. split; [intros ->; reflexivity|congruence].
  - intros Hl Hn H. destruct l as [|x [|y l]]; [| |simpl in Hl; lia]; destruct n as [|[|n]]; try lia; try reflexivity. simpl in H. lia.
  - intros H. destruct (Nat.eqb (length l) n) eqn:E.
    + apply Nat.eqb_eq in E. cbn [option_map rev app]. apply truth_ambiguous. lia.
    + destruct (Nat.eqb (length l) 1) eqn:E1.
      * apply Nat.eqb_eq in E1. cbn [option_map rev app]. apply truth_ambiguous. lia.
      * destruct (Nat.eqb n 1) eqn:E2.
        -- apply Nat.eqb_eq in E2. cbn [option_map rev app]. apply truth_ambiguous. lia.
        -- cbn. eauto.
Qed.

(** Indexing first *)
Lemma index_number n v k a : number_or_vector n v -> (k < n)%nat ->
  exists x, index_value a (KInt (Z.of_nat k)) v = VParam a (PArr x) /\ nd_shape x = [] /\ nd_entry x [] = component k v.
Proof.
  intros (i & [(r & ->)|(f & ->)]) Hk; cbn [index_value].
  - exists (scalar r). repeat split.
  - unfold take_slice, getitem, nd_getitem. cbn [nd_shape]. unfold position.
    rewrite (proj2 (Z.leb_le 0 (Z.of_nat k))) by lia. rewrite (proj2 (Z.ltb_lt (Z.of_nat k) (Z.of_nat n))) by lia. rewrite Nat2Z.id.
    cbn. eexists. split; [reflexivity|]. split; reflexivity.
Qed.
Definition indexed (fresh : nat) (k : key) (l : list value) : list value :=
  map (fun p => index_value (fresh + fst p) k (snd p)) (combine (seq 0 (length l)) l).
Lemma indexed_cons fresh k v l : indexed fresh k (v :: l) = index_value fresh k v :: indexed (S fresh) k l.
Proof.
  unfold indexed. cbn [length seq combine map fst snd]. rewrite Nat.add_0_r. f_equal.
  rewrite <- seq_shift. generalize (seq 0 (length l)). clear v. induction l as [|w l IH]; intros [|s ss]; cbn; auto. f_equal; [f_equal; lia|apply IH].
Qed.
Lemma eq_indexed n k : (k < n)%nat -> forall l m fresh fresh', Forall (number_or_vector n) l -> Forall (number_or_vector n) m -> length l = length m ->
  (fresh + length l <= fresh')%nat ->
  exists b, eq_tuple (indexed fresh (KInt (Z.of_nat k)) l) (indexed fresh' (KInt (Z.of_nat k)) m) = Ok b /\
    (b = true <-> Forall2 (fun v w => component k v = component k w) l m).
Proof.
  intros Hk. induction l as [|v l IH]; intros [|w m] fresh fresh' F G L A; try discriminate L.
  - apply decided. split; [constructor|reflexivity].
  - inversion F; inversion G; subst. rewrite !indexed_cons. simpl in A, L.
    destruct (index_number n v k fresh ltac:(assumption) Hk) as (x & -> & Sx & Ex). destruct (index_number n w k fresh' ltac:(assumption) Hk) as (y & -> & Sy & Ey).
    cbn [eq_tuple eq_value]. rewrite (proj2 (Nat.eqb_neq fresh fresh')) by lia. cbn [eq_params]. unfold eq_arrays. rewrite Sx, Sy. cbn [broadcast_shapes rev bc option_map app truth indices].
    unfold at_index. rewrite Sx, Sy. cbn [rev proj app bind]. rewrite Ex, Ey.
    destruct (eqR (component k v) (component k w)) eqn:E.
    + apply eqR_iff in E. destruct (IH m (S fresh) (S fresh') ltac:(assumption) ltac:(assumption) ltac:(lia) ltac:(lia)) as (b & Eb & Hb).
      exists b. split; [exact Eb|]. rewrite Hb. split; [now constructor|now inversion 1].
    + apply decided. split; [discriminate|]. inversion 1; subst. rewrite (proj2 (eqR_iff _ _)) in E by assumption. discriminate.
Qed.
Lemma index_values fresh k o : map snd (d_values (index_object fresh k o)) = indexed fresh k (map snd (d_values o)).
Proof.
  unfold index_object, indexed. cbn [d_values]. rewrite map_map, map_length. cbn [snd].
  generalize (seq 0 (length (d_values o))). induction (d_values o) as [|[n v] l IH]; intros [|s ss]; cbn; auto. now rewrite IH.
Qed.
Lemma eq_objects_indexed n k o o' fresh fresh' : (k < n)%nat ->
  Forall (number_or_vector n) (map snd (d_values o)) -> Forall (number_or_vector n) (map snd (d_values o')) ->
  d_class o = d_class o' -> length (d_values o) = length (d_values o') -> (fresh + length (d_values o) <= fresh')%nat ->
  exists b, eq_objects (index_object fresh (KInt (Z.of_nat k)) o) (index_object fresh' (KInt (Z.of_nat k)) o') = Ok b /\
    (b = true <-> Forall2 (fun v w => component k v = component k w) (map snd (d_values o)) (map snd (d_values o'))).
Proof.
  intros Hk F G E L A. unfold eq_objects. rewrite !index_values. cbn [d_class index_object]. rewrite E, String.eqb_refl.
  apply (eq_indexed n k Hk); [exact F|exact G|now rewrite !map_length|now rewrite map_length].
Qed.

Lemma fill_raises kw : forall fields args e, fill fields args kw = Raise e ->
  (length fields < length args)%nat \/
  (exists j name d v, nth_error fields j = Some (name, d) /\ (j < length args)%nat /\ In (name, v) kw) \/
  (exists j name, nth_error fields j = Some (name, None) /\ (length args <= j)%nat /\ forall v, ~ In (name, v) kw).
Proof.
  induction fields as [|[name d] fields IH]; intros [|a args] e; simpl; try discriminate.
  - intros _. left. lia.
  - destruct (keyword name kw) as [v|] eqn:Ek; [|destruct d as [v|]].
    1, 2: destruct (fill fields [] kw) as [r|e'] eqn:Ef; [discriminate|]; intros _; destruct (IH [] e' Ef) as [H|[(j & n & d' & w & H1 & H2 & H3)|(j & n & H1 & H2 & H3)]];
      [simpl in H; lia|simpl in H2; lia|right; right; exists (S j), n; repeat split; auto; simpl; lia].
    intros _. right; right. exists 0%nat, name. rewrite keyword_none in Ek. repeat split; auto.
  - destruct (keyword name kw) as [v|] eqn:Ek.
    + intros _. right; left. exists 0%nat, name, d, v. apply keyword_in in Ek. repeat split; auto. simpl. lia.
    + destruct (fill fields args kw) as [r|e'] eqn:Ef; [discriminate|]; intros _.
      destruct (IH args e' Ef) as [H|[(j & n & d' & w & H1 & H2 & H3)|(j & n & H1 & H2 & H3)]].
      * left. simpl. lia.
      * right; left. exists (S j), n, d', w. repeat split; auto. simpl. lia.
      * right; right. exists (S j), n. repeat split; auto. simpl. lia.
Qed.
Lemma init_well_formed fields args kw : NoDup (map fst fields) -> well_formed fields args kw -> exists vs, init fields args kw = Ok vs.
Proof.
  intros Nf (H1 & H2 & H3). unfold init. replace (forallb _ kw) with true.
  - destruct (fill fields args kw) as [vs|e] eqn:E; [eauto|].
    destruct (fill_raises kw fields args e E) as [H|[(j & n & d & w & G1 & G2 & G3)|(j & n & G1 & G2 & G3)]]; [lia| |].
    + destruct (H2 n w G3) as (j' & d' & Hj' & Hl'). assert (j = j'); [|lia]. apply (proj1 (NoDup_nth_error (map fst fields)) Nf).
      * rewrite map_length. apply nth_error_Some. congruence.
      * rewrite !nth_error_map, G1, Hj'. reflexivity.
    + destruct (H3 j n G1) as [Hl|[v Hv]]; [lia|]. now destruct (G3 v).
  - symmetry. apply forallb_forall. intros [k v] Hin. destruct (H2 k v Hin) as (j & d & Hj & _). apply existsb_exists.
    exists (k, d). split; [now apply nth_error_In in Hj|apply String.eqb_refl].
Qed.
Lemma class_found c fields : In (c, fields) dataclasses -> find (fun p => String.eqb (fst p) c) dataclasses = Some (c, fields) /\ NoDup (map fst fields) /\
  (c = "NormalInverseGamma" -> In "delta_inverse" (map fst fields) /\ In "nu" (map fst fields)).
Proof.
  intros H. simpl in H.
  repeat match type of H with _ \/ _ => destruct H as [H|H] | _ = _ => injection H as <- <- | False => contradiction end;
    (split; [reflexivity|split; [repeat (constructor; [simpl; intuition discriminate|]); constructor|intros E; try discriminate E; simpl; tauto]]).
Qed.
Lemma nth_error_ext_map {B C D} (vs : list (B * C)) (fields : list (B * D)) : length vs = length fields ->
  (forall j name d, nth_error fields j = Some (name, d) -> exists v, nth_error vs j = Some (name, v)) -> map fst vs = map fst fields.
Proof.
  revert fields. induction vs as [|[n v] vs IH]; intros [|[n' d] fields] L H; try discriminate L; [reflexivity|]. cbn. f_equal.
  - destruct (H 0%nat n' d eq_refl) as (w & Hw). now injection Hw as ->.
  - apply IH; [now injection L|]. intros j name d' Hj. exact (H (S j) name d' Hj).
Qed.
Lemma instantiate_spec c fields args kw : In (c, fields) dataclasses -> NoDup (map fst kw) ->
  (well_formed fields args kw ->
   exists vs, length vs = length fields /\
     (forall j name d, nth_error fields j = Some (name, d) -> exists v, nth_error vs j = Some (name, v) /\ receives args kw j name d v) /\
     (one_precision c vs -> instantiate c args kw = Ok (mkDobj c vs)) /\
     (~ one_precision c vs -> exists m, instantiate c args kw = Raise (ValueError m))) /\
  (~ well_formed fields args kw -> exists m, instantiate c args kw = Raise (TypeError m)).
Proof.
  intros Hc N. destruct (class_found c fields Hc) as (Ef & Nf & Hn). unfold instantiate. rewrite Ef. split.
  - intros W. destruct (init_well_formed fields args kw Nf W) as [vs E]. exists vs. pose proof (proj1 (init_spec fields args kw vs N Nf) E) as (_ & L & V).
    assert (Em : map fst vs = map fst fields).
    { apply nth_error_ext_map; [exact L|]. intros j name d Hj. destruct (V j name d Hj) as (v & Hv & _). now exists v. }
    refine (conj L (conj V _)). rewrite E. cbn [bind]. split.
    + apply post_init_ok. now rewrite Em.
    + intros H1. destruct (string_dec c "NormalInverseGamma") as [->|Hd].
      * destruct (Hn eq_refl) as [Hd Hu]. apply post_init_bad; auto; now rewrite Em.
      * destruct H1. intros E'. contradiction.
  - intros W. destruct (init_total fields args kw) as [[vs E]|[m E]]; [|exists m; now rewrite E]. destruct W. now apply (init_spec fields args kw vs N Nf) in E.
Qed.
Lemma eq_objects_self o : eq_objects o o = Ok true.
Proof. unfold eq_objects. rewrite String.eqb_refl. apply eq_self. Qed.
Lemma eq_objects_vectors c name n f g i j rest rest' : (2 <= n)%nat -> i <> j ->
  exists m, eq_objects (mkDobj c ((name, VParam i (PArr (mkNd [n] f))) :: rest)) (mkDobj c ((name, VParam j (PArr (mkNd [n] g))) :: rest')) = Raise (ValueError m).
Proof.
  intros H D. unfold eq_objects. cbn [d_class d_values]. rewrite String.eqb_refl. cbn [map snd eq_tuple].
  destruct (eq_vectors_raise n f g i j H D) as [m ->]. exists m. reflexivity.
Qed.

(** ** Defaults *)
Lemma defaults_table :
  Forall (fun cf : string * list field => forall name d, In (name, d) (snd cf) ->
    (forall v, d = Some v -> In (fst cf, name, v) (optional 0)) /\ (d = None -> forall v, ~ In (fst cf, name, v) (optional 0))) dataclasses.
Proof.
  unfold dataclasses. repeat apply Forall_cons; try apply Forall_nil; cbn [fst snd];
  intros name d H; cbn [In] in H;
  repeat match type of H with _ \/ _ => destruct H as [H|H] end; try contradiction; injection H as <- <-;
  (split; [intros v E; try discriminate E; injection E as <-; unfold optional; cbn [In]; tauto
          | intros E v Hv; try discriminate E; unfold optional in Hv; cbn [In] in Hv;
            repeat match type of Hv with _ \/ _ => destruct Hv as [Hv|Hv] end; try contradiction; try discriminate Hv; try (injection Hv; intros; discriminate)]).
Qed.

Lemma construct_defaults c names kw :
  In (c, names) documented -> NoDup (map fst kw) -> incl (map fst kw) names ->
  ((forall k, In k names -> ~ In k (map fst kw) -> exists v, In (c, k, v) (optional 0)) ->
   exists vs, map fst vs = names /\
     (forall k v, In (k, v) vs -> In (k, v) kw \/ ~ In k (map fst kw) /\ In (c, k, v) (optional 0)) /\
     (one_precision c vs -> instantiate c [] kw = Ok (mkDobj c vs)) /\
     (~ one_precision c vs -> exists m, instantiate c [] kw = Raise (ValueError m))) /\
  ((exists k, In k names /\ ~ In k (map fst kw) /\ forall v, ~ In (c, k, v) (optional 0)) ->
   exists m, instantiate c [] kw = Raise (TypeError m)).
Proof.
  intros Hd Hnd Hincl.
  assert (T : exists fields, In (c, fields) dataclasses /\ map fst fields = names).
  { assert (E : documented = map (fun cf => (fst cf, map fst (snd cf))) dataclasses) by reflexivity.
    rewrite E in Hd. apply in_map_iff in Hd as ((c' & fields) & E' & Hin). injection E' as <- <-. eauto. }
  destruct T as (fields & Hin & <-).
  pose proof defaults_table as D. rewrite Forall_forall in D. specialize (D _ Hin). cbn [fst snd] in D.
  destruct (instantiate_spec c fields [] kw Hin Hnd) as [A B].
  split.
  - intros Hall.
    assert (W : well_formed fields [] kw).
    { split; [apply Nat.le_0_l|]. split.
      - intros k v Hk. assert (Hk' : In k (map fst fields)) by (apply Hincl; apply in_map_iff; exists (k, v); auto).
        apply in_map_iff in Hk' as ((k' & d) & E & Hf). simpl in E. subst k'. apply In_nth_error in Hf as [j Hj].
        exists j, d. split; auto. apply Nat.le_0_l.
      - intros j name Hj. right. apply nth_error_In in Hj.
        destruct (in_dec string_dec name (map fst kw)) as [Hk|Hk].
        + apply in_map_iff in Hk as ((k & v) & E & Hk). simpl in E. subst k. eauto.
        + destruct (Hall name) as [v Hv]; auto. apply in_map_iff. exists (name, None). auto.
          destruct (proj2 (D _ _ Hj) eq_refl v Hv). }
    destruct (A W) as (vs & Lvs & Hvs & H1 & H2). exists vs.
    assert (N : forall j name v, nth_error vs j = Some (name, v) -> exists d, nth_error fields j = Some (name, d) /\ receives [] kw j name d v).
    { intros j name v Ej. assert (Hj : (j < List.length fields)%nat) by (rewrite <- Lvs; apply nth_error_Some; congruence).
      apply nth_error_Some in Hj. destruct (nth_error fields j) as [[n d]|] eqn:Ef; [|congruence].
      destruct (Hvs j n d Ef) as (v' & Ev & Rv). rewrite Ej in Ev. injection Ev as -> ->. eauto. }
    split; [|split; [|split; [exact H1|exact H2]]].
    + clear - Lvs N. revert fields Lvs N. induction vs as [|[n v] vs IH]; intros [|[m d] fields] L N; try discriminate; auto.
      simpl. f_equal.
      * destruct (N 0%nat n v eq_refl) as (d' & E & _). now injection E.
      * apply IH. now injection L. intros j name w Ej. destruct (N (S j) name w Ej) as (d' & E & Hr). exists d'. split; auto.
        unfold receives in *. destruct j; simpl in *; auto.
    + intros k v Hkv. apply In_nth_error in Hkv as [j Hj]. destruct (N _ _ _ Hj) as (d & Ef & Hr).
      destruct Hr as [Hr|[[_ Hr]|(_ & Hno & Hr)]].
      * destruct j; discriminate.
      * left. exact Hr.
      * right. split.
        { intros Hk. apply in_map_iff in Hk as ((k' & w) & E & Hk). simpl in E. subst k'. exact (Hno w Hk). }
        { exact (proj1 (D _ _ (nth_error_In _ _ Ef)) v Hr). }
  - intros (k & Hk & Hno & Hopt). apply B. intros (_ & _ & W).
    apply in_map_iff in Hk as ((k' & d) & E & Hf). simpl in E. subst k'.
    destruct d as [v|].
    + exact (Hopt v (proj1 (D _ _ Hf) v eq_refl)).
    + apply In_nth_error in Hf as [j Hj]. destruct (W j k Hj) as [L|[v Hv]].
      * inversion L.
      * apply Hno, in_map_iff. exists (k, v). auto.
Qed.
