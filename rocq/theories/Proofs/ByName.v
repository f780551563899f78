(** Calls by name. *)

From Coq Require Import ZArith String List Bool Permutation Lia.
From Verif Require Import Model.Num Model.Py Model.Dists Model.Models Model.Table Model.Validate Model.ByName.
From Verif Require Import Spec.TypeCheck Spec.Interface Proofs.Validate.
Import ListNotations.
Open Scope string_scope.
Open Scope list_scope.

Lemma find_in {B} (kw : list (string * B)) k o : NoDup (map fst kw) -> In (k, o) kw ->
  find (fun p => String.eqb (fst p) k) kw = Some (k, o).
Proof.
  induction kw as [|[k' o'] kw IH]; simpl; [contradiction|]. intros N [H|H]; inversion N; subst.
  - injection H as -> ->. now rewrite String.eqb_refl.
  - destruct (String.eqb_spec k' k) as [E|E]; [|now apply IH]. subst. exfalso. apply H2. apply in_map_iff. now exists (k, o).
Qed.
Lemma find_not {B} (kw : list (string * B)) k : (forall o, ~ In (k, o) kw) -> find (fun p => String.eqb (fst p) k) kw = None.
Proof.
  induction kw as [|[k' o'] kw IH]; simpl; auto. intros H. destruct (String.eqb_spec k' k) as [E|E].
  - subst. exfalso. apply (H o'). now left.
  - apply IH. intros o Ho. apply (H o). now right.
Qed.

Section ByName.
Context {A : Type} {NA : Num A} (U : Ufuncs A).
Notation ob := (obj (pyval A)).
Notation kws := (kwargs (pyval A)).

Lemma get_has (kw : kws) k o : NoDup (map fst kw) -> has kw k o -> get k kw = o.
Proof. intros N H. unfold get. now rewrite (find_in kw k o N H). Qed.
Lemma given_has (kw : kws) k o : NoDup (map fst kw) -> has kw k o -> given kw k = Some o.
Proof. intros N H. unfold given. now rewrite (find_in kw k o N H). Qed.
Lemma given_omitted (kw : kws) k : omitted kw k -> given kw k = None.
Proof. intros H. unfold given. now rewrite (find_not kw k H). Qed.

Lemma call_body name (kw : kws) (body : kws -> outcome ob) d : let s := sig_of name in
  get (sig_parameter s) kw = d -> is_instance d (sig_annotation s) = true -> binds (sig_params s) [] kw = true ->
  snd (call s body [] kw) = snd (body kw).
Proof.
  intros s G I B. unfold call, validate_type. rewrite G, I. unfold py_function. rewrite B.
  destruct (body kw). reflexivity.
Qed.

Lemma forward_body (f : forwarder (pyval A)) (body : kws -> outcome ob) (kw : kws) :
  snd (fwd_body f body kw) = snd (call (sig_of (fwd_inner f)) body []
    (map (fun p => (fst p, match snd p with FromArg q => get q kw | Computed g => g kw end)) (fwd_sources f))).
Proof. unfold fwd_body, forward. destruct (fwd_warning f); [unfold warn; destruct (call _ _ _ _)|]; reflexivity. Qed.

Lemma num_attr_in c sup fields n a : NoDup (map fst fields) -> In (n, ANum a) fields ->
  num_attr (OInst c sup (VDist fields) : ob) n = Ok a.
Proof. intros N H. unfold num_attr, attribute. now rewrite (find_in fields n (ANum a) N H). Qed.
Lemma opt_attr_in c sup fields n a : NoDup (map fst fields) -> In (n, ANum a) fields ->
  opt_attr (OInst c sup (VDist fields) : ob) n = Ok (Some a).
Proof. intros N H. unfold opt_attr, attribute. now rewrite (find_in fields n (ANum a) N H). Qed.
Lemma opt_attr_none c sup fields n : NoDup (map fst fields) -> In (n, ANone) fields ->
  opt_attr (OInst c sup (VDist fields) : ob) n = Ok None.
Proof. intros N H. unfold opt_attr, attribute. now rewrite (find_in fields n ANone N H). Qed.

Lemma bool_or_arg (kw : kws) b : NoDup (map fst kw) -> flag_arg kw b -> bool_or kw "one_start" true = Ok b.
Proof.
  intros N [[H ->]|(c & sup & H)]; unfold bool_or; [now rewrite (given_omitted kw _ H)|now rewrite (given_has kw _ _ N H)].
Qed.
Lemma fun1_or_arg (kw : kws) k d f : NoDup (map fst kw) -> fun1_arg kw k d f -> fun1_or kw k d = Ok f.
Proof.
  intros N [[H ->]|(c & sup & H)]; unfold fun1_or; [now rewrite (given_omitted kw _ H)|now rewrite (given_has kw _ _ N H)].
Qed.
Lemma fun2_or_arg (kw : kws) k d f : NoDup (map fst kw) -> fun2_arg kw k d f -> fun2_or kw k d = Ok f.
Proof.
  intros N [[H ->]|(c & sup & H)]; unfold fun2_or; [now rewrite (given_omitted kw _ H)|now rewrite (given_has kw _ _ N H)].
Qed.

Lemma instance_of c sup v a : In a (c :: sup) -> is_instance1 (OInst c sup v : ob) a = true.
Proof. intros H. unfold is_instance1. apply existsb_exists. exists a. split; [exact H|apply Nat.eqb_refl]. Qed.
Lemma not_instance_of c sup v a : (forall c', In c' (c :: sup) -> cls_id c' <> cls_id a) -> is_instance1 (OInst c sup v : ob) a = false.
Proof.
  intros H. unfold is_instance1. apply not_true_iff_false. rewrite existsb_exists. intros (c' & Hc & E).
  apply Nat.eqb_eq in E. exact (H c' Hc E).
Qed.

Lemma recip_num (o : ob) a : as_num o = Ok a -> as_num (recip o) = Ok (ndiv (nlit 1%Z) a).
Proof. destruct o as [|c sup v]; [discriminate|]. destruct v; try discriminate. simpl. now intros [= ->]. Qed.

Lemma library_in c s : find (fun p => Nat.eqb (cls_id (fst p)) (cls_id c)) library = Some (c, s) -> In (c, s) library.
Proof. intros H. exact (proj1 (find_some _ _ H)). Qed.

(** ** The rows *)
Fixpoint every {B} (P : B -> Prop) (l : list B) : Prop := match l with [] => True | x :: l' => P x /\ every P l' end.
Lemma every_in {B} (P : B -> Prop) l : (forall x, In x l -> P x) -> every P l.
Proof. induction l; simpl; auto. Qed.

Definition arg_fact (kw : kws) (f : fn) (p : slot * A) : Prop :=
  match fst p with
  | Arg k => match @default A NA f k with
             | None => (exists o, In (k, o) kw) /\ as_num (get k kw) = Ok (snd p)
             | Some a => num_or kw k a = Ok (snd p)
             end
  | Attr _ => True
  end.
Definition attr_fact (d : ob) (p : slot * A) : Prop :=
  match fst p with Attr n => num_attr d n = Ok (snd p) /\ opt_attr d n = Ok (Some (snd p)) | Arg _ => True end.
Definition fixed_fact (d : ob) (p : string * constant) : Prop :=
  match snd p with IsNone => opt_attr d (fst p) = Ok None | IsBool _ => True end.

Ltac values_of L vs := repeat (destruct vs as [|? vs]; try discriminate L); clear L.
Ltac conjs := repeat match goal with H : _ /\ _ |- _ => destruct H | H : exists _, _ |- _ => destruct H | H : True |- _ => clear H end.
Ltac red_row := cbn [i_name i_fn i_slots i_parameter i_class i_not i_fixed i_result i_attrs i_result_fixed
    posterior predictive simple normal_row args attrs map app ab nig_attrs ng_attrs delta_none combine length fst snd
    optional_args optional_names every arg_fact attr_fact fixed_fact default String.eqb Ascii.eqb Bool.eqb] in *.

Ltac inst_row := match goal with FI : is_instance1 ?d ?c = true |- is_instance ?d ?a = true =>
  let a' := eval vm_compute in a in change (is_instance d a' = true); unfold is_instance;
  repeat match goal with
  | |- is_instance1 _ _ = true => exact FI
  | |- existsb _ _ = true => apply existsb_exists; eexists; split; [|exact FI]; vm_compute; tauto
  end end.
Ltac binds_row := apply binds_spec; split; [reflexivity|]; split;
  [ let k := fresh "k" in let o := fresh "o" in let Hin := fresh "Hin" in intros k o Hin;
    match goal with HK : forall k o, In (k, o) _ -> _ |- _ => specialize (HK k o Hin); simpl in HK;
      repeat match type of HK with _ \/ _ => destruct HK as [HK|HK] end; try contradiction; try discriminate HK;
      try (injection HK as HK); subst k; eexists; cbv; repeat first [left; reflexivity | right] end
  | let p := fresh "p" in let Hp := fresh "Hp" in intros p Hp; vm_compute in Hp;
    repeat match type of Hp with _ \/ _ => destruct Hp as [Hp|Hp] end; try contradiction; try discriminate Hp;
    injection Hp as <-; eexists; eassumption ].
Ltac eval_body := unfold get_VariancePrior, get_NormalPrior, num, get_Beta, get_BetaBinomial, get_Gamma, get_Normal, get_InverseGamma, get_SICS, get_NormalGamma,
    get_Pareto, get_GammaProportional, get_GammaKnownRate, get_BetaProportional, get_VonMisesConcentration,
    get_VonMisesDirection, get_NIG, attrs2, attrs3, attrs4, unused;
  repeat match goal with H : ?l = ?r |- context [?l] => match r with OInst _ _ _ => fail 1 | _ => rewrite H end; cbn [bind rmap negb]
  | H : as_num ?o = Ok _ |- context [as_num (recip ?o)] => rewrite (recip_num _ _ H); cbn [bind] end.
Ltac options := repeat match goal with
  | N : NoDup (map fst ?kw), H : flag_arg ?kw _ |- _ => apply (bool_or_arg _ _ N) in H
  | N : NoDup (map fst ?kw), H : fun1_arg ?kw _ _ _ |- _ => apply (fun1_or_arg _ _ _ _ N) in H
  | N : NoDup (map fst ?kw), H : fun2_arg ?kw _ _ _ |- _ => apply (fun2_or_arg _ _ _ _ N) in H
  end.
Ltac eval_forward := rewrite forward_body; match goal with GD : get _ _ = ?d |- _ => rewrite (call_body _ _ _ d);
  [|cbv [fwd_inner fwd_sources]; exact GD|cbv [fwd_inner]; inst_row|reflexivity] end;
  cbv [fwd_inner fwd_sources map fst snd body_of bodies find String.eqb Ascii.eqb Bool.eqb]; cbn [snd];
  repeat match goal with N : NoDup (map fst ?kw) |- context [get ?k ?kw] => let o := fresh "o" in set (o := get k kw) in *; clearbody o end;
  unfold num, unused;
  repeat match goal with |- context [get ?k (?x :: ?l)] => let v := eval cbv [get find fst snd String.eqb Ascii.eqb Bool.eqb] in (get k (x :: l)) in
    change (get k (x :: l)) with v end.
Ltac body_row := options; unfold python_body; cbv [forwarders find fwd_outer String.eqb Ascii.eqb Bool.eqb];
  first [eval_forward | cbv [body_of bodies find String.eqb Ascii.eqb Bool.eqb fst snd]]; eval_body; try match goal with Ed : ?d = OInst _ _ _ |- context [new_NormalPrior ?d] => rewrite Ed end; reflexivity.
Ltac result_row := split; [reflexivity|]; eexists _, _, _; split; [first [reflexivity | match goal with Ed : _ = OInst _ _ _ |- _ => rewrite Ed; reflexivity end]|]; split;
  [simpl; repeat first [apply Permutation_refl | apply perm_skip | apply perm_swap] | first [split; [reflexivity|apply library_in; reflexivity] | eexists; eassumption]].

Lemma proper_call_run U' i vals d kw : In i interfaces -> proper_call U U' i vals d kw ->
  exists r vs, run U' (i_fn i) vals = Ok vs /\ snd (python_call U (i_name i) [] kw) = Ok r /\ is_result i d r vs.
Proof.
  intros Hi (L & N & HA & HD & (c & sup & fields & -> & NF & Hc & Hn & Hnum & Hfix) & HO & HK).
  apply (get_has kw _ _ N) in HD as GD.
  remember (OInst c sup (VDist fields)) as d eqn:Ed.
  assert (FA : every (arg_fact kw (i_fn i)) (combine (i_slots i) vals)).
  { apply every_in. intros [[k|n] a] H; [|exact I]. unfold arg_fact. cbn [fst snd].
    destruct (HA k a H) as [(o & H1 & (c' & s' & ->))|[H1 H2]].
    - destruct (default (i_fn i) k).
      + unfold num_or. now rewrite (given_has kw _ _ N H1).
      + split; [eexists; exact H1|]. now rewrite (get_has kw _ _ N H1).
    - rewrite H2. unfold num_or. now rewrite (given_omitted kw _ H1). }
  assert (FD : every (attr_fact d) (combine (i_slots i) vals)).
  { apply every_in. intros [[k|n] a] H; [exact I|]. unfold attr_fact. cbn [fst snd].
    assert (In (n, ANum a) fields) by (apply Hnum, in_flat_map; exists (Attr n, a); split; [exact H|now left]).
    rewrite Ed. split; [now apply num_attr_in|now apply opt_attr_in]. }
  assert (FF : every (fixed_fact d) (i_fixed i)).
  { apply every_in. intros [n [b|]] H; [exact I|]. unfold fixed_fact. cbn [fst snd]. rewrite Ed. apply opt_attr_none; [exact NF|exact (Hfix n IsNone H)]. }
  assert (FI : is_instance1 d (i_class i) = true) by (rewrite Ed; now apply instance_of).
  assert (FN : every (fun o => is_instance1 d o = false) (i_not i)).
  { apply every_in. intros o Ho. rewrite Ed. apply not_instance_of. intros c' Hc'. exact (Hn o c' Ho Hc'). }
  clear HA Hc Hn Hnum Hfix.
  unfold interfaces in Hi. repeat (destruct Hi as [<-|Hi]; [|]); [..|contradiction].
  all: red_row; values_of L vals; red_row; conjs.
  all: eexists _, _; split; [reflexivity|].
  all: split; [unfold python_call; erewrite call_body; [|exact GD|inst_row|]|].
  all: try match goal with |- binds _ _ _ = true => binds_row end.
  all: try match goal with |- snd _ = Ok _ => body_row end.
  all: result_row.
Qed.

(** ** Order of keywords *)
Lemma nodup_perm {B} (kw kw' : list (string * B)) : Permutation kw kw' -> NoDup (map fst kw) -> NoDup (map fst kw').
Proof. intros P N. apply (Permutation_NoDup (l := map fst kw)); [now apply Permutation_map|exact N]. Qed.
Lemma find_perm {B} (kw kw' : list (string * B)) k : Permutation kw kw' -> NoDup (map fst kw) ->
  find (fun p => String.eqb (fst p) k) kw = find (fun p => String.eqb (fst p) k) kw'.
Proof.
  intros P N. destruct (find _ kw) as [[k' o]|] eqn:E.
  - destruct (find_some _ _ E) as [Hin Hk]. simpl in Hk. apply String.eqb_eq in Hk. subst k'. symmetry.
    apply find_in; [now apply (nodup_perm kw)|]. now apply (Permutation_in _ P).
  - symmetry. apply find_not. intros o Ho. apply (Permutation_in _ (Permutation_sym P)) in Ho.
    apply (find_none _ _ E (k, o)) in Ho. simpl in Ho. now rewrite String.eqb_refl in Ho.
Qed.
Lemma forallb_perm {B} (f : B -> bool) l l' : Permutation l l' -> forallb f l = forallb f l'.
Proof.
  intros P. apply eq_iff_eq_true. rewrite !forallb_forall. split; intros H x Hx; apply H; [now apply (Permutation_in _ (Permutation_sym P))|now apply (Permutation_in _ P)].
Qed.
Lemma existsb_perm {B} (f : B -> bool) l l' : Permutation l l' -> existsb f l = existsb f l'.
Proof.
  intros P. apply eq_iff_eq_true. rewrite !existsb_exists. split; intros (x & Hx & H); exists x; (split; [|exact H]);
    [now apply (Permutation_in _ P)|now apply (Permutation_in _ (Permutation_sym P))].
Qed.
Lemma binds_perm params (l : list ob) (kw kw' : kws) : Permutation kw kw' -> binds params l kw = binds params l kw'.
Proof.
  intros P. unfold binds. rewrite (forallb_perm _ _ _ P). f_equal. apply eq_iff_eq_true. rewrite !forallb_forall.
  split; intros H p Hp; specialize (H p Hp); [rewrite <- (existsb_perm _ _ _ P)|rewrite (existsb_perm _ _ _ P)]; exact H.
Qed.

Lemma call_perm s (body : kws -> outcome ob) l kw kw' : Permutation kw kw' -> NoDup (map fst kw) -> body kw = body kw' ->
  call s body l kw = call s body l kw'.
Proof.
  intros P N E. unfold call, validate_type, get. rewrite (find_perm _ _ _ P N). unfold py_function.
  rewrite (binds_perm _ _ _ _ P), E. reflexivity.
Qed.

Lemma body_of_perm name kw kw' : Permutation kw kw' -> NoDup (map fst kw) -> body_of U name kw = body_of U name kw'.
Proof.
  intros P N. assert (G : forall k, get k kw = get k kw') by (intros k; unfold get; now rewrite (find_perm _ _ k P N)).
  assert (V : forall k, given kw k = given kw' k) by (intros k; unfold given; now rewrite (find_perm _ _ k P N)).
  unfold body_of. destruct (find _ (bodies U)) as [p|] eqn:E; [|reflexivity]. apply find_some in E. destruct E as [E _].
  f_equal. clear name. unfold bodies in E.
  repeat (destruct E as [<-|E]; [cbn [snd]; unfold num, unused, num_or, bool_or, fun1_or, fun2_or, num; rewrite ?G, ?V; reflexivity|]).
  contradiction.
Qed.

Lemma python_call_perm name l kw kw' : Permutation kw kw' -> NoDup (map fst kw) ->
  python_call U name l kw = python_call U name l kw'.
Proof.
  intros P N. apply call_perm; [exact P|exact N|]. unfold python_body.
  destruct (find _ (forwarders _ _)) as [f|] eqn:E; [|now apply body_of_perm]. apply find_some in E. destruct E as [E _].
  assert (G : forall k, get k kw = get k kw') by (intros k; unfold get; now rewrite (find_perm _ _ k P N)).
  clear name. unfold forwarders in E.
  repeat (destruct E as [<-|E]; [unfold fwd_body, warn, forward; cbn [fwd_warning fwd_inner fwd_sources map fst snd]; rewrite !G; reflexivity|]).
  contradiction.
Qed.

(** ** Results as priors *)
Definition class_eqb (c d : cls) : bool := Nat.eqb (cls_id c) (cls_id d).
Definition const_eqb (p q : string * constant) : bool :=
  String.eqb (fst p) (fst q) &&
  match snd p, snd q with IsNone, IsNone => true | IsBool b, IsBool b' => Bool.eqb b b' | _, _ => false end.
Definition subset {B} (eqb : B -> B -> bool) (l l' : list B) : bool := forallb (fun x => existsb (eqb x) l') l.
Definition feeds_ok (i i' : interface) : bool :=
  implb (class_eqb (match i_result i with Some c => c | None => i_class i end) (i_class i'))
   ((if list_eq_dec string_dec (prior_names i') (i_attrs i) then true else false)
    && (if list_eq_dec string_dec (nodup string_dec (i_attrs i ++ map fst (i_result_fixed i)))
          (i_attrs i ++ map fst (i_result_fixed i)) then true else false)
    && subset const_eqb (i_fixed i') (i_result_fixed i)
    && match i_result i with
       | Some c => forallb (fun p => implb (class_eqb (fst p) c)
                     (forallb (fun d => negb (existsb (fun o => class_eqb d o) (i_not i'))) (fst p :: snd p))) library
       | None => subset class_eqb (i_not i') (i_not i)
       end).
Lemma feeds_checked : forallb (fun i => forallb (feeds_ok i) interfaces) interfaces = true.
Proof. vm_compute. reflexivity. Qed.

Lemma combine_fst {B C} (l : list B) (l' : list C) : length l = length l' -> map fst (combine l l') = l.
Proof. revert l'. induction l as [|x l IH]; intros [|y l'] H; try discriminate; simpl; auto. f_equal. apply IH. now injection H. Qed.

Lemma result_prior i i' (d r : ob) numbers (vs : list A) : In i interfaces -> In i' interfaces -> feeds i i' ->
  is_prior i d numbers -> is_result i d r vs ->
  length vs = length (prior_names i') /\ is_prior i' r (combine (prior_names i') vs).
Proof.
  intros Hi Hi' F Hp (L & c & sup & fields & -> & P & Hr).
  pose proof feeds_checked as G. rewrite forallb_forall in G. specialize (G i Hi). rewrite forallb_forall in G. specialize (G i' Hi').
  unfold feeds_ok in G. unfold feeds in F. rewrite F in G. unfold class_eqb at 1 in G. rewrite Nat.eqb_refl in G. cbn [implb] in G.
  rewrite !andb_true_iff in G. destruct G as [[[G1 G2] G3] G4].
  destruct (list_eq_dec string_dec (prior_names i') (i_attrs i)) as [E1|]; [|discriminate]. clear G1.
  destruct (list_eq_dec string_dec (nodup _ _) _) as [E2|]; [|discriminate]. clear G2.
  rewrite E1. split; [exact L|]. exists c, sup, fields. split; [reflexivity|]. split; [|split; [|split; [|split]]].
  - apply (Permutation_NoDup (l := map fst (combine (i_attrs i) (map ANum vs) ++ map (fun p => (fst p, constant_attr (snd p))) (i_result_fixed i)))).
    + apply Permutation_map, Permutation_sym, P.
    + rewrite map_app, combine_fst by now rewrite map_length. rewrite map_map.
      change (NoDup (i_attrs i ++ map fst (i_result_fixed i))). rewrite <- E2. apply NoDup_nodup.
  - destruct (i_result i) as [c'|]; [destruct Hr as [-> _]; left; exact F|]. destruct Hr as [v ->].
    destruct Hp as (c2 & s2 & f2 & E & _ & Hc & _). injection E as -> -> ->. rewrite <- F. exact Hc.
  - intros o c' Ho Hc'. destruct (i_result i) as [cr|].
    + destruct Hr as [-> Hlib]. rewrite forallb_forall in G4. specialize (G4 _ Hlib). cbn [fst snd] in G4.
      unfold class_eqb at 1 in G4. rewrite Nat.eqb_refl in G4. cbn [implb] in G4. rewrite forallb_forall in G4. specialize (G4 c' Hc').
      apply negb_true_iff in G4. intros Eid. apply not_true_iff_false in G4. apply G4. apply existsb_exists. exists o.
      split; [exact Ho|]. unfold class_eqb. now rewrite Eid, Nat.eqb_refl.
    + destruct Hr as [v ->]. destruct Hp as (c2 & s2 & f2 & E & _ & _ & Hn & _). injection E as -> -> ->.
      unfold subset in G4. rewrite forallb_forall in G4. specialize (G4 o Ho). apply existsb_exists in G4. destruct G4 as (o' & Ho' & Eo).
      unfold class_eqb in Eo. apply Nat.eqb_eq in Eo. rewrite Eo. exact (Hn o' c' Ho' Hc').
  - intros n a H. apply (Permutation_in _ (Permutation_sym P)). apply in_or_app. left.
    clear -H. revert vs H. induction (i_attrs i) as [|x l IH]; intros [|y vs] H; simpl in *; try contradiction.
    destruct H as [H|H]; [left; now injection H as -> ->|right; now apply IH].
  - intros n k H. unfold subset in G3. rewrite forallb_forall in G3. specialize (G3 _ H). apply existsb_exists in G3.
    destruct G3 as ([n' k'] & Hin & E). unfold const_eqb in E. cbn [fst snd] in E. apply andb_true_iff in E. destruct E as [E E'].
    apply String.eqb_eq in E. subst n'. apply (Permutation_in _ (Permutation_sym P)). apply in_or_app. right. apply in_map_iff.
    exists (n, k'). split; [|exact Hin]. cbn [fst snd]. f_equal.
    destruct k, k'; try discriminate E'; [apply eqb_prop in E'; now subst|reflexivity].
Qed.
(** ** Missing attributes *)
Lemma missing_attribute f k c sup fields c1 s1 c2 s2 (x n : A) name :
  In (f, k) [("poisson_gamma", "x_total"); ("exponential_gamma", "x_total")] ->
  In cGamma (c :: sup) -> NoDup (map fst fields) ->
  (name = "alpha" \/ name = "beta" /\ exists a, In ("alpha", ANum a) fields) -> (forall a, ~ In (name, a) fields) ->
  snd (python_call U f [] [(k, OInst c1 s1 (VNum x)); ("n", OInst c2 s2 (VNum n)); ("prior", OInst c sup (VDist fields))]) = Raise (AttributeError name).
Proof.
  intros Hf Hc N Hn Hm. set (d := OInst c sup (VDist fields)). assert (FI : is_instance1 (d : obj (pyval A)) cGamma = true) by now apply instance_of.
  assert (E : @get_Gamma A d = Raise (AttributeError name)).
  { unfold get_Gamma, attrs2, num_attr, attribute, d. destruct Hn as [->|[-> [a Ha]]].
    - now rewrite (find_not fields "alpha" Hm).
    - rewrite (find_in fields "alpha" (ANum a) N Ha). cbn [bind snd]. now rewrite (find_not fields "beta" Hm). }
  simpl in Hf. destruct Hf as [Hf|[Hf|[]]]; injection Hf as <- <-.
  all: unfold python_call; rewrite (call_body _ _ _ d); [|reflexivity|inst_row|reflexivity].
  all: unfold python_body; cbv [forwarders find fwd_outer String.eqb Ascii.eqb Bool.eqb];
    cbv [body_of bodies find String.eqb Ascii.eqb Bool.eqb fst snd get num as_num bind]; fold d; rewrite E; reflexivity.
Qed.
End ByName.
