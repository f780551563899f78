(** Proofs about updating batch by batch. *)

From Coq Require Import ZArith String Permutation Reals Lra Lia.
From Verif Require Import Model.Num Model.Py Model.Dists Model.Models Model.Table Model.Validate Model.ByName Model.DocLoop.
From Verif Require Import Spec.Interface Spec.DocLoop Proofs.ByName.
From Coq Require Import List.
Import ListNotations.
Open Scope string_scope.
Open Scope list_scope.

Lemma running_cons n s : running (n :: s) = n :: map (fun k => (n + k)%nat) (running s).
Proof.
  unfold running. cbn [length seq map]. f_equal; [simpl; lia|]. rewrite map_map, <- seq_shift, map_map. apply map_ext. intros k. reflexivity.
Qed.

Definition self_row (i : interface) : Prop :=
  i_parameter i = "prior" /\ feeds i i.
(** data first, then the prior's attributes; "prior" is not a name of data *)
Definition ordered (i : interface) : Prop :=
  i_slots i = args (arg_names i) ++ attrs (prior_names i) /\ ~ In "prior" (arg_names i) /\ NoDup (arg_names i).
Lemma ordered_rows i : In i interfaces -> i_parameter i = "prior" -> ordered i.
Proof.
  intros Hi. unfold interfaces in Hi. simpl in Hi.
  repeat match type of Hi with _ \/ _ => destruct Hi as [<-|Hi] | _ = _ => subst i | False => contradiction end;
    intros E; try discriminate E; (split; [reflexivity|]; split;
    [cbv; intuition discriminate | cbv; repeat (constructor; [cbv; intuition discriminate|]); constructor]).
Qed.
Lemma optional_not_prior f : ~ In "prior" (optional_names f).
Proof. destruct f; cbv; intuition discriminate. Qed.

Section Generic.
Context {A : Type} {NA : Num A} (U U' : Ufuncs A).
Notation ob := (obj (pyval A)).
Notation kws := (kwargs (pyval A)).

Lemma omitted_app (kw : kws) k (d : ob) : k <> "prior" -> omitted kw k -> omitted (kw ++ [("prior", d)]) k.
Proof. intros Hk H o Ho. apply in_app_or in Ho. destruct Ho as [Ho|[Ho|[]]]; [exact (H o Ho)|]. injection Ho as E _. now apply Hk. Qed.
Lemma flag_app (kw : kws) b (d : ob) : flag_arg kw b -> flag_arg (kw ++ [("prior", d)]) b.
Proof. intros [[H E]|(c & s & H)]; [left; split; [now apply omitted_app|exact E]|right; exists c, s; apply in_or_app; now left]. Qed.
Lemma fun1_app (kw : kws) k f g (d : ob) : k <> "prior" -> fun1_arg kw k f g -> fun1_arg (kw ++ [("prior", d)]) k f g.
Proof. intros Hk [[H E]|(c & s & H)]; [left; split; [now apply omitted_app|exact E]|right; exists c, s; apply in_or_app; now left]. Qed.
Lemma fun2_app (kw : kws) k f g (d : ob) : k <> "prior" -> fun2_arg kw k f g -> fun2_arg (kw ++ [("prior", d)]) k f g.
Proof. intros Hk [[H E]|(c & s & H)]; [left; split; [now apply omitted_app|exact E]|right; exists c, s; apply in_or_app; now left]. Qed.
Lemma optional_app (kw : kws) f (d : ob) : optional_args U U' kw f -> optional_args U U' (kw ++ [("prior", d)]) f.
Proof.
  destruct f; simpl; auto using flag_app.
  - intros H. apply fun2_app; [discriminate|exact H].
  - intros H. apply fun1_app; [discriminate|exact H].
  - intros (H1 & H2 & H3). refine (conj _ (conj _ _)); [apply fun1_app|apply fun1_app|apply fun2_app]; auto; discriminate.
Qed.

Lemma combine_app {B C} (l1 l2 : list B) (m1 m2 : list C) : length l1 = length m1 ->
  combine (l1 ++ l2) (m1 ++ m2) = combine l1 m1 ++ combine l2 m2.
Proof. revert m1. induction l1; intros [|m m1]; simpl; intros H; try discriminate; [reflexivity|]. f_equal. apply IHl1. congruence. Qed.
Lemma attrs_of_args (l : list string) (m : list A) :
  flat_map (fun p => match fst p with Attr n => [(n, snd p)] | Arg _ => [] end) (combine (args l) m) = [].
Proof. revert m. induction l; intros [|m0 m]; simpl; auto. Qed.
Lemma attrs_of_attrs (l : list string) (m : list A) :
  flat_map (fun p => match fst p with Attr n => [(n, snd p)] | Arg _ => [] end) (combine (attrs l) m) = combine l m.
Proof. revert m. induction l; intros [|m0 m]; simpl; auto. now rewrite IHl. Qed.
Lemma arg_in (l : list string) (m : list A) k a : In (Arg k, a) (combine (args l) m) -> In (k, a) (combine l m).
Proof. revert m. induction l; intros [|m0 m]; simpl; auto. intros [H|H]; [left; congruence|right; auto]. Qed.
Lemma arg_not_attrs (l : list string) (m : list A) k a : ~ In (Arg k, a) (combine (attrs l) m).
Proof. revert m. induction l; intros [|m0 m]; simpl; auto. intros [H|H]; [discriminate|exact (IHl m H)]. Qed.

Lemma step_proper i data kw d p : In i interfaces -> i_parameter i = "prior" ->
  gives U U' i data kw -> has_parameters i d p -> proper_call U U' i (data ++ p) d (kw ++ [("prior", d)]).
Proof.
  intros Hi Ep (L & N & HA & HO & HK) (Lp & Hp). destruct (ordered_rows i Hi Ep) as (Es & Np & Na).
  assert (Lc : length (args (arg_names i)) = length data) by (unfold args; now rewrite map_length).
  unfold proper_call. rewrite Es, Ep. rewrite (combine_app _ _ _ _ Lc).
  refine (conj _ (conj _ (conj _ (conj _ (conj _ (conj _ _)))))).
  - rewrite !app_length. unfold args, attrs. rewrite !map_length. lia.
  - rewrite map_app. apply NoDup_incl_NoDup with (l := "prior" :: map fst kw).
    + constructor; [|exact N]. rewrite in_map_iff. intros ([k o] & E & Hin). simpl in E. subst k.
      destruct (HK _ _ Hin) as [H|H]; [exact (Np H)|exact (optional_not_prior _ H)].
    + rewrite app_length. simpl. lia.
    + intros x Hx. apply in_or_app. destruct Hx as [<-|Hx]; [right; now left|now left].
  - intros k a Hin. apply in_app_or in Hin. destruct Hin as [Hin|Hin]; [|now apply arg_not_attrs in Hin].
    apply arg_in in Hin. destruct (HA _ _ Hin) as (o & Ho & Hn). left. exists o. split; [apply in_or_app; now left|exact Hn].
  - apply in_or_app. right. now left.
  - rewrite flat_map_app, attrs_of_args, attrs_of_attrs. exact Hp.
  - apply optional_app. exact HO.
  - intros k o Hin. apply in_app_or in Hin. destruct Hin as [Hin|[Hin|[]]].
    + destruct (HK _ _ Hin) as [H|H]; [|right; right; exact H]. right. left. apply in_or_app. left. unfold args. now apply in_map.
    + left. congruence.
Qed.

Lemma loop_chain i : In i interfaces -> i_parameter i = "prior" -> feeds i i ->
  forall (sizes : list nat) (datas : list (list A)) (kwl : list kws) (cumsum : nat) (prior : ob) (p : list A),
  length sizes = length kwl -> Forall2 (gives U U' i) datas kwl -> has_parameters i prior p ->
  exists posteriors objects, chain U' (i_fn i) datas p = Ok posteriors /\
    update_loop U (i_name i) cumsum (combine sizes kwl) prior = Ok (combine (map (fun k => (cumsum + k)%nat) (running sizes)) objects) /\
    Forall2 (has_parameters i) objects posteriors /\ length objects = length datas.
Proof.
  intros Hi Ep Hf. induction sizes as [|n sizes IH]; intros datas kwl cumsum prior p L F Hp.
  - destruct kwl; [|discriminate L]. inversion F; subst. exists [], []. repeat split; constructor.
  - destruct kwl as [|kw kwl]; [discriminate L|]. inversion F as [|data kw' datas' kwl' Hg F' E1 E2]; subst.
    destruct (proper_call_run U U' i _ prior _ Hi (step_proper i data kw prior p Hi Ep Hg Hp)) as (r & vs & Hr & Hc & Hres).
    assert (Hp' : has_parameters i r vs) by (destruct Hp as [_ Hp]; exact (result_prior i i prior r _ vs Hi Hi Hf Hp Hres)).
    destruct (IH datas' kwl (cumsum + n)%nat r vs ltac:(simpl in L; lia) F' Hp') as (posts & objs & H1 & H2 & H3 & H4).
    exists (vs :: posts), (r :: objs). cbn [combine chain update_loop]. rewrite Hr. cbn [bind]. rewrite H1. cbn [bind]. rewrite Hc. cbn [bind]. rewrite H2. cbn [bind].
    rewrite running_cons. cbn [map combine length]. rewrite map_map.
    refine (conj eq_refl (conj _ (conj _ _))); [|now constructor|now rewrite H4].
    do 3 f_equal. apply map_ext. intros k. lia.
Qed.
End Generic.

(** ** The two programs *)
Open Scope R_scope.
Lemma forall2_length {B C} (P : B -> C -> Prop) l m : Forall2 P l m -> length l = length m.
Proof. induction 1; simpl; congruence. Qed.
Lemma Forall2_chain {B} (P : B -> list R -> Prop) objs posts (g : nat -> list R) :
  Forall2 P objs posts -> posts = map g (seq 0 (length posts)) -> forall k o, nth_error objs k = Some o -> P o (g k).
Proof.
  intros F E k o Hk. assert (Hl : (k < length posts)%nat).
  { rewrite <- (forall2_length _ _ _ F). apply nth_error_Some. congruence. }
  assert (H : nth_error posts k = Some (g k)).
  { rewrite E at 1. rewrite nth_error_map. rewrite (nth_error_nth' _ 0%nat) by now rewrite seq_length. simpl. now rewrite seq_nth. }
  clear E Hl. revert posts F H Hk. generalize (g k). clear g. revert objs.
  induction k as [|k IH]; intros objs v posts F H Hk; destruct F as [|x y l l' Hxy F]; try discriminate; simpl in *.
  - injection H as <-. injection Hk as <-. exact Hxy.
  - exact (IH _ _ _ F H Hk).
Qed.

Definition normal_numbers (data : list R) : list R :=
  [fold_right Rplus 0 data; fold_right Rplus 0 (map (fun x => x ^ 2) data); INR (length data)].
(** the parameters after the data *)
Definition after (data : list R) : list R :=
  let n := INR (length data) in let s := fold_right Rplus 0 data in let s2 := fold_right Rplus 0 (map (fun x => x ^ 2) data) in
  [s / (1 + n); 1 + n / 2; 1 + (s2 - s ^ 2 / (1 + n)) / 2; 1 + n].
Lemma sum_app' a b : fold_right Rplus 0 (a ++ b) = fold_right Rplus 0 a + fold_right Rplus 0 b.
Proof. induction a; simpl; [ring|rewrite IHa; ring]. Qed.
Lemma ok4 (a b c d a' b' c' d' : R) : a = a' -> b = b' -> c = c' -> d = d' -> Ok [a; b; c; d] = Ok [a'; b'; c'; d'].
Proof. now intros -> -> -> ->. Qed.
Lemma ok2 (a b a' b' : R) : a = a' -> b = b' -> Ok [a; b] = Ok [a'; b'].
Proof. now intros -> ->. Qed.
Lemma after_step U old data : data <> [] -> run U F_normal_nig (normal_numbers data ++ after old) = Ok (after (old ++ data)).
Proof.
  intros Hd. unfold normal_numbers, after. cbv [app run]. cbn [normal nig NormalInverseGamma_nu NormalInverseGamma_mu NormalInverseGamma_alpha NormalInverseGamma_beta normal_update rmap new_NormalInverseGamma NormalPrior_fields bind].
  rewrite !map_app, !sum_app', !app_length, !plus_INR.
  assert (Hn : 0 < INR (length data)) by (destruct data; [now destruct Hd|apply lt_0_INR; simpl; lia]).
  pose proof (pos_INR (length old)) as Ho.
  set (n := INR (length data)) in *. set (m := INR (length old)) in *. set (s := fold_right Rplus 0 data). set (t := fold_right Rplus 0 old).
  set (s2 := fold_right Rplus 0 (map _ data)). set (t2 := fold_right Rplus 0 (map _ old)).
  cbn -[pow]. apply ok4; field; repeat split; lra.
Qed.
Lemma chain_after U : forall (batches : list (list R)) (old : list R), Forall (fun b => b <> []) batches ->
  chain U F_normal_nig (map normal_numbers batches) (after old) =
  Ok (map (fun k => after (old ++ concat (firstn (S k) batches))) (seq 0 (length batches))).
Proof.
  induction batches as [|b batches IH]; intros old F; [reflexivity|]. inversion F as [|? ? Hb F']; subst.
  cbn [map chain]. rewrite (after_step U old b Hb). cbn [bind]. rewrite (IH _ F'). cbn [bind length seq map]. do 2 f_equal.
  - simpl. now rewrite app_nil_r.
  - rewrite <- seq_shift, map_map. apply map_ext. intros k. cbn [firstn concat]. now rewrite app_assoc.
Qed.

Definition normal_interface : interface :=
  normal_row "normal" F_normal_nig ["x_total"; "x2_total"; "n"] cNormalInverseGamma cNormalGamma nig_attrs delta_none.
Lemma normal_in : In normal_interface interfaces.
Proof. unfold interfaces. do 26 right. left. reflexivity. Qed.
Lemma normal_gives U b : gives U U normal_interface (normal_numbers b) (snd (normal_batch b)).
Proof.
  split; [reflexivity|]. split; [repeat (constructor; [simpl; intuition discriminate|]); constructor|]. split.
  - intros k a H. cbn in H. repeat match type of H with _ \/ _ => destruct H as [H|H] end; try contradiction; injection H as <- <-;
      (eexists; split; [|exists cfloat, []; reflexivity]); simpl; auto.
  - split; [exact I|]. intros k o H. cbn in H. left.
    repeat match type of H with _ \/ _ => destruct H as [H|H] end; try contradiction; injection H as <- _; simpl; auto.
Qed.
Lemma normal_prior_parameters : has_parameters normal_interface normal_prior (after []).
Proof.
  split; [reflexivity|]. eexists _, _, _. split; [reflexivity|]. split; [repeat (constructor; [simpl; intuition discriminate|]); constructor|].
  split; [now left|]. split; [intros o c' [<-|[]] H; vm_compute in H; repeat match type of H with _ \/ _ => destruct H as [H|H] end; try contradiction; subst c'; discriminate|].
  split.
  - intros n a H. cbn in H. repeat match type of H with _ \/ _ => destruct H as [H|H] end; try contradiction; injection H as <- <-; simpl;
      repeat (first [left; f_equal; f_equal; field | right]).
  - intros n k [H|[]]. injection H as <- <-. simpl. auto 6.
Qed.
Lemma combine_map_pair {B C D} (f : B -> C) (g : B -> D) l : combine (map f l) (map g l) = map (fun x => (f x, g x)) l.
Proof. induction l; simpl; congruence. Qed.
Lemma update_normal_spec U batches : Forall (fun b => b <> []) batches ->
  exists objects, update_normal U batches = Ok (combine (running (map (@length R) batches)) objects) /\
    length objects = length batches /\
    forall k o, nth_error objects k = Some o -> has_parameters normal_interface o (after (concat (firstn (S k) batches))).
Proof.
  intros F. destruct (loop_chain U U normal_interface normal_in eq_refl eq_refl (map (@length R) batches) (map normal_numbers batches)
    (map (fun b => snd (normal_batch b)) batches) 0 normal_prior (after [])) as (posts & objs & H1 & H2 & H3 & H4).
  - now rewrite !map_length.
  - clear F. induction batches as [|b l IH]; cbn [map]; constructor; [apply normal_gives|exact IH].
  - exact normal_prior_parameters.
  - exists objs. rewrite map_length in H4. split; [|split; [exact H4|]].
    + unfold update_normal. rewrite combine_map_pair in H2.
      rewrite (map_ext normal_batch (fun x => (length x, snd (normal_batch x))) ltac:(reflexivity)). etransitivity; [exact H2|]. cbn [Nat.add]. now rewrite map_id.
    + change (i_fn normal_interface) with F_normal_nig in H1. rewrite (chain_after U batches [] F) in H1. injection H1 as <-.
      apply (Forall2_chain _ _ _ (fun k => after (concat (firstn (S k) batches))) H3). now rewrite map_length, seq_length.
Qed.

Definition binomial_interface : interface := posterior "binomial_beta" F_binomial_beta ["n"; "x"] cBeta ab.
Definition binomial_numbers (b : nat * R) : list R := [INR (fst b); snd b].
Definition counts (bs : list (nat * R)) : list R :=
  let x := fold_right Rplus 0 (map snd bs) in let n := fold_right Rplus 0 (map (fun b => INR (fst b)) bs) in [1 + x; 1 + (n - x)].
Lemma counts_step U old b : run U F_binomial_beta (binomial_numbers b ++ counts old) = Ok (counts (old ++ [b])).
Proof. unfold counts. rewrite !map_app, !sum_app'. cbn -[INR]. apply ok2; cbn [Beta_alpha Beta_beta]; ring. Qed.
Lemma chain_counts U : forall batches old,
  chain U F_binomial_beta (map binomial_numbers batches) (counts old) =
  Ok (map (fun k => counts (old ++ firstn (S k) batches)) (seq 0 (length batches))).
Proof.
  induction batches as [|b batches IH]; intros old; [reflexivity|].
  cbn [map chain]. rewrite (counts_step U old b). cbn [bind]. rewrite IH. cbn [bind length seq map]. do 2 f_equal.
  rewrite <- seq_shift, map_map. apply map_ext. intros k. cbn [firstn]. now rewrite <- app_assoc.
Qed.
Lemma binomial_gives U b : gives U U binomial_interface (binomial_numbers b) (snd (binomial_batch b)).
Proof.
  split; [reflexivity|]. split; [repeat (constructor; [simpl; intuition discriminate|]); constructor|]. split.
  - intros k a H. cbn in H. repeat match type of H with _ \/ _ => destruct H as [H|H] end; try contradiction; injection H as <- <-;
      (eexists; split; [|exists cfloat, []; reflexivity]); simpl; auto.
  - split; [exact I|]. intros k o H. cbn in H. left.
    repeat match type of H with _ \/ _ => destruct H as [H|H] end; try contradiction; injection H as <- _; simpl; auto.
Qed.
Lemma binomial_prior_parameters : has_parameters binomial_interface binomial_prior (counts []).
Proof.
  split; [reflexivity|]. eexists _, _, _. split; [reflexivity|]. split; [repeat (constructor; [simpl; intuition discriminate|]); constructor|].
  split; [now left|]. split; [intros o c' []|].
  split; [|intros n k []].
  intros n a H. cbn in H. repeat match type of H with _ \/ _ => destruct H as [H|H] end; try contradiction; injection H as <- <-; simpl;
      repeat (first [left; f_equal; f_equal; ring | right]).
Qed.
Lemma update_binomial_spec U batches :
  exists objects, update_binomial U batches = Ok (combine (running (map fst batches)) objects) /\
    length objects = length batches /\
    forall k o, nth_error objects k = Some o -> has_parameters binomial_interface o (counts (firstn (S k) batches)).
Proof.
  destruct (loop_chain U U binomial_interface ltac:(now left) eq_refl eq_refl (map fst batches) (map binomial_numbers batches)
    (map (fun b => snd (binomial_batch b)) batches) 0 binomial_prior (counts [])) as (posts & objs & H1 & H2 & H3 & H4).
  - now rewrite !map_length.
  - induction batches as [|b l IH]; cbn [map]; constructor; [apply binomial_gives|exact IH].
  - exact binomial_prior_parameters.
  - exists objs. rewrite map_length in H4. split; [|split; [exact H4|]].
    + unfold update_binomial. rewrite combine_map_pair in H2.
      rewrite (map_ext binomial_batch (fun x => (fst x, snd (binomial_batch x))) ltac:(reflexivity)). etransitivity; [exact H2|]. cbn [Nat.add]. now rewrite map_id.
    + change (i_fn binomial_interface) with F_binomial_beta in H1. rewrite (chain_counts U batches []) in H1. injection H1 as <-.
      apply (Forall2_chain _ _ _ (fun k => counts (firstn (S k) batches)) H3). now rewrite map_length, seq_length.
Qed.

Lemma loop_chain0 (A : Type) (NA : Num A) (U U' : Ufuncs A) (i : interface) : In i interfaces -> i_parameter i = "prior" -> feeds i i ->
  forall (sizes : list nat) (datas : list (list A)) (kwl : list (kwargs (pyval A))) (prior : obj (pyval A)) (p : list A),
  length sizes = length kwl -> Forall2 (gives U U' i) datas kwl -> has_parameters i prior p ->
  exists posteriors objects, chain U' (i_fn i) datas p = Ok posteriors /\
    update_loop U (i_name i) 0 (combine sizes kwl) prior = Ok (combine (running sizes) objects) /\
    Forall2 (has_parameters i) objects posteriors /\ length objects = length datas.
Proof.
  intros Hi Ep Hf sizes datas kwl prior p L F Hp.
  destruct (loop_chain U U' i Hi Ep Hf sizes datas kwl 0 prior p L F Hp) as (a & b & H1 & H2 & H3 & H4).
  exists a, b. cbn [Nat.add] in H2. rewrite map_id in H2. auto.
Qed.
