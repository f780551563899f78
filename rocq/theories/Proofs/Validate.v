(** The validation decorators. *)

From Coq Require Import String List Bool Arith Lia.
From Verif Require Import Model.Num Model.Py Model.Dists Model.Models Model.Validate Spec.TypeCheck.
Import ListNotations.
Open Scope string_scope.
Open Scope list_scope.

Lemma is_instance1_spec {V} (o : obj V) c : is_instance1 o c = true <-> exists d, In d (classes o) /\ cls_id d = cls_id c.
Proof.
  destruct o as [|d sup v]; unfold is_instance1, classes.
  - rewrite Nat.eqb_eq. split; [intros H; exists cNoneType; split; [left|]; auto|]. intros (d & [<-|[]] & E). exact E.
  - cbn [existsb]. rewrite orb_true_iff, Nat.eqb_eq, existsb_exists. split.
    + intros [H|(e & H1 & H2)]; [exists d; simpl; auto|]. apply Nat.eqb_eq in H2. exists e; simpl; auto.
    + intros (e & [E|H1] & H2); [left; congruence|]. right. exists e. rewrite Nat.eqb_eq. auto.
Qed.

Lemma is_instance_spec {V} (o : obj V) a : is_instance o a = true <-> well_typed o a.
Proof.
  unfold well_typed. destruct a as [c|cs]; simpl.
  - rewrite is_instance1_spec. split. intros (d & H1 & H2). exists d, c. auto.
    intros (d & e & H1 & [<-|[]] & H2). eauto.
  - rewrite existsb_exists. split.
    + intros (c & H1 & H2). apply is_instance1_spec in H2. destruct H2 as (d & H2 & H3). exists d, c. auto.
    + intros (d & c & H1 & H2 & H3). exists c. split; auto. apply is_instance1_spec. eauto.
Qed.

Lemma passed_get {V} k (kw : kwargs V) o : passed k kw o -> get k kw = o.
Proof.
  unfold get. induction 1 as [|o kw|k' o' kw o Hk H IH]; simpl; auto.
  - now rewrite String.eqb_refl.
  - destruct (String.eqb_spec k' k); [contradiction|exact IH].
Qed.

Lemma get_passed {V} k (kw : kwargs V) : passed k kw (get k kw).
Proof.
  unfold get. induction kw as [|[k' o'] kw IH]; simpl. constructor.
  destruct (String.eqb_spec k' k) as [->|N]; constructor; auto.
Qed.

Lemma binds_spec {V} params (args : list (obj V)) kw : binds params args kw = true <-> arguments_match params args kw.
Proof.
  unfold binds, arguments_match. rewrite !andb_true_iff, !forallb_forall. split.
  - intros [[H1 H2] H3]. split. now destruct args. split.
    + intros k o Hin. specialize (H2 _ Hin). apply existsb_exists in H2. destruct H2 as ([p b] & Hp & E).
      apply String.eqb_eq in E. simpl in E. subst. eauto.
    + intros p Hp. specialize (H3 _ Hp). simpl in H3. apply existsb_exists in H3. destruct H3 as ([k o] & Hk & E).
      apply String.eqb_eq in E. simpl in E. subst. eauto.
  - intros (-> & H2 & H3). split; [split; auto|].
    + intros [k o] Hin. destruct (H2 _ _ Hin) as (b & Hb). apply existsb_exists. exists (k, b). simpl. now rewrite String.eqb_refl.
    + intros [p b] Hp. simpl. destruct b; auto. simpl. destruct (H3 _ Hp) as (o & Ho). apply existsb_exists.
      exists (p, o). simpl. now rewrite String.eqb_refl.
Qed.

(** C36: a well typed prior lets the body run, on the same arguments *)
Lemma call_accepts {V B} (s : signature) (body : kwargs V -> outcome B) args kw o :
  passed (sig_parameter s) kw o -> well_typed o (sig_annotation s) ->
  (arguments_match (sig_params s) args kw ->
     call s body args kw = (Ran (sig_name s) :: fst (body kw), snd (body kw))) /\
  (~ arguments_match (sig_params s) args kw -> call s body args kw = ([], Raise (TypeError "wrong arguments"))).
Proof.
  intros H W. apply passed_get in H. apply is_instance_spec in W. unfold call, validate_type, py_function. rewrite H, W.
  rewrite <- binds_spec. destruct (binds (sig_params s) args kw); split; intros Hb; try congruence; try tauto.
  now destruct (body kw).
Qed.

(** C36: an ill typed or absent prior: nothing runs, ValueError *)
Lemma call_rejects {V B} (s : signature) (body : kwargs V -> outcome B) args kw o c :
  sig_annotation s = Single c -> passed (sig_parameter s) kw o -> ~ well_typed o (sig_annotation s) ->
  call s body args kw = ([], Raise (ValueError (wrong_type_message (sig_parameter s) (cls_name c) (type_name o)))).
Proof.
  intros E H W. apply passed_get in H. unfold call, validate_type. rewrite H.
  destruct (is_instance o (sig_annotation s)) eqn:I. apply is_instance_spec in I. contradiction.
  rewrite E. simpl. unfold wrong_type_message, repr. f_equal. f_equal. f_equal.
  assert (A : forall a b c : string, (a ++ (b ++ c) = (a ++ b) ++ c)%string) by (intros a b d; induction a; simpl; congruence).
  destruct o; simpl; rewrite <- !A; reflexivity.
Qed.

(** C36: with a Union annotation the error message itself fails *)
Lemma call_rejects_union {V B} (s : signature) (body : kwargs V -> outcome B) args kw o cs :
  sig_annotation s = Union cs -> passed (sig_parameter s) kw o -> ~ well_typed o (sig_annotation s) ->
  call s body args kw = ([], Raise (AttributeError "'types.UnionType' object has no attribute '__name__'")).
Proof.
  intros E H W. apply passed_get in H. unfold call, validate_type. rewrite H.
  destruct (is_instance o (sig_annotation s)) eqn:I. apply is_instance_spec in I. contradiction.
  now rewrite E.
Qed.

(** The body runs iff the prior is well typed and the arguments match. *)
Lemma call_runs_iff {V B} (s : signature) (body : kwargs V -> outcome B) args kw o : passed (sig_parameter s) kw o ->
  (fst (call s body args kw) <> [] <-> well_typed o (sig_annotation s) /\ arguments_match (sig_params s) args kw).
Proof.
  intros H. apply passed_get in H. unfold call, validate_type, py_function. rewrite H, <- binds_spec, <- is_instance_spec.
  destruct (is_instance o (sig_annotation s)); [|simpl; split; [tauto|intros [? _]; discriminate]].
  destruct (binds (sig_params s) args kw); [|simpl; split; [tauto|intros [_ ?]; discriminate]].
  destruct (body kw); simpl. split; auto. discriminate.
Qed.

Definition is_union (a : annotation) : bool := match a with Union _ => true | Single _ => false end.

Lemma union_functions : map sig_name (filter (fun s => is_union (sig_annotation s)) signatures) =
  ["normal_known_mean"; "normal_known_mean_predictive"; "normal"; "normal_predictive"; "log_normal"].
Proof. reflexivity. Qed.

(** Every signature validates one of its own required parameters, called prior or distribution. *)
Lemma signatures_wf : forall s, In s signatures ->
  In (sig_parameter s, true) (sig_params s) /\ (sig_parameter s = "prior" \/ sig_parameter s = "distribution") /\
  NoDup (map fst (sig_params s)) /\ admitted (sig_annotation s) <> [].
Proof.
  assert (G : forallb (fun s => existsb (fun p => String.eqb (fst p) (sig_parameter s) && snd p) (sig_params s)
    && (String.eqb (sig_parameter s) "prior" || String.eqb (sig_parameter s) "distribution")
    && (if list_eq_dec string_dec (nodup string_dec (map fst (sig_params s))) (map fst (sig_params s)) then true else false)
    && match admitted (sig_annotation s) with [] => false | _ => true end) signatures = true) by (vm_compute; reflexivity).
  intros s Hs. rewrite forallb_forall in G. specialize (G s Hs). rewrite !andb_true_iff in G. destruct G as [[[G1 G2] G3] G4].
  apply existsb_exists in G1. destruct G1 as ([p b] & Hp & E). apply andb_true_iff in E. destruct E as [E1 E2].
  simpl in *. apply String.eqb_eq in E1. subst.
  apply orb_true_iff in G2. rewrite !String.eqb_eq in G2.
  destruct (list_eq_dec string_dec (nodup string_dec (map fst (sig_params s))) (map fst (sig_params s))) as [Nd|]; [|discriminate].
  assert (NoDup (map fst (sig_params s))) by (rewrite <- Nd; apply NoDup_nodup).
  repeat split; auto. now destruct (admitted (sig_annotation s)).
Qed.

(** C36: among the library's own classes exactly the annotated ones are accepted *)
Lemma library_accepted {V} (v : V) : forall s c sup, In s signatures -> In (c, sup) library ->
  (well_typed (OInst c sup v) (sig_annotation s) <-> In c (admitted (sig_annotation s))).
Proof.
  assert (dec : forall c d : cls, {c = d} + {c <> d}) by (decide equality; [apply string_dec | apply Nat.eq_dec]).
  assert (G : forallb (fun s => forallb (fun cs => Bool.eqb (is_instance (OInst (fst cs) (snd cs) v) (sig_annotation s))
     (existsb (fun d => Nat.eqb (cls_id (fst cs)) (cls_id d) && String.eqb (cls_name (fst cs)) (cls_name d)) (admitted (sig_annotation s)))) library) signatures = true)
    by (vm_compute; reflexivity).
  intros s c sup Hs Hc. rewrite forallb_forall in G. specialize (G s Hs). rewrite forallb_forall in G. specialize (G _ Hc).
  apply eqb_prop in G. simpl fst in G. simpl snd in G. rewrite <- is_instance_spec, G, existsb_exists. split.
  - intros ([i n] & Hin & E). apply andb_true_iff in E. rewrite Nat.eqb_eq, String.eqb_eq in E. simpl in E. destruct c; simpl in *.
    destruct E; subst. exact Hin.
  - intros H. exists c. now rewrite Nat.eqb_refl, String.eqb_refl.
Qed.

(** C36: the message tells the classes apart *)
Lemma library_names : map (fun cs => cls_name (fst cs)) library = class_names.
Proof. reflexivity. Qed.

Lemma append_inj_l a b c : (a ++ b = a ++ c)%string -> b = c.
Proof. induction a as [|x a IH]; simpl; [auto|]. intros H. injection H. exact IH. Qed.

Lemma append_length a b : String.length (a ++ b) = (String.length a + String.length b)%nat.
Proof. induction a; simpl; congruence. Qed.

Lemma append_inj_r a b c : (a ++ c = b ++ c)%string -> a = b.
Proof.
  revert b. induction a as [|x a IH]; intros [|y b] H; [reflexivity| | |].
  - apply (f_equal String.length) in H. cbn [append String.length] in H. rewrite append_length in H. lia.
  - apply (f_equal String.length) in H. cbn [append String.length] in H. rewrite append_length in H. lia.
  - cbn [append] in H. injection H as -> H. f_equal. now apply IH.
Qed.

Lemma message_tells p e : forall (c c' : cls * list cls), In c library -> In c' library ->
  wrong_type_message p e (cls_name (fst c)) = wrong_type_message p e (cls_name (fst c')) -> c = c'.
Proof.
  assert (N : NoDup (map (fun cs => cls_name (fst cs)) library)).
  { rewrite library_names. assert (E : nodup string_dec class_names = class_names) by (vm_compute; reflexivity). rewrite <- E. apply NoDup_nodup. }
  intros c c' H H' E. unfold wrong_type_message in E. do 5 (apply append_inj_l in E). apply append_inj_r in E.
  clear - N H H' E. induction library as [|d l IH]; [destruct H|]. cbn [map] in N. apply NoDup_cons_iff in N. destruct N as [N1 N2].
  destruct H as [->|H], H' as [->|H'].
  - reflexivity.
  - destruct N1. rewrite E. now apply (in_map (fun cs => cls_name (fst cs))).
  - destruct N1. rewrite <- E. now apply (in_map (fun cs => cls_name (fst cs))).
  - now apply IH.
Qed.

(** ** Forwarders *)

Lemma is_instance_mono {V} (o : obj V) a b :
  (forall c, In c (admitted a) -> In c (admitted b)) -> well_typed o a -> well_typed o b.
Proof. intros H (c & d & H1 & H2 & H3). exists c, d. auto. Qed.

(** C36/C54: a forwarding function never has its arguments rejected by the function it calls *)
Lemma forwarders_run {V B} (one : obj V) recip (f : forwarder V) (inner_body : kwargs V -> outcome B) args kw o :
  let outer := sig_of (fwd_outer f) in let inner := sig_of (fwd_inner f) in
  In f (forwarders one recip) -> passed (sig_parameter outer) kw o ->
  well_typed o (sig_annotation outer) -> arguments_match (sig_params outer) args kw ->
  exists kw', passed (sig_parameter inner) kw' o /\ In outer signatures /\ In inner signatures /\
  call outer (fwd_body f inner_body) args kw =
    (Ran (fwd_outer f) :: match fwd_warning f with Some w => [Warned w] | None => [] end
       ++ Ran (fwd_inner f) :: fst (inner_body kw'), snd (inner_body kw')).
Proof.
  intros outer inner Hf Hp Hw Hm.
  assert (Ho := passed_get _ _ _ Hp).
  destruct (call_accepts outer (fwd_body f inner_body) args kw o Hp Hw) as [A _]. rewrite (A Hm). clear A.
  assert (W : well_typed o (sig_annotation inner)).
  { revert Hw. apply is_instance_mono. unfold outer, inner.
    clear - Hf. simpl in Hf. repeat (destruct Hf as [<-|Hf]; [vm_compute; tauto|]). contradiction. }
  exists (map (fun p => (fst p, match snd p with FromArg q => get q kw | Computed g => g kw end)) (fwd_sources f)).
  set (kw' := map _ _).
  assert (P : passed (sig_parameter inner) kw' o).
  { unfold kw'. clear - Hf Ho. rewrite <- Ho. unfold outer, inner. simpl in Hf.
    repeat (destruct Hf as [<-|Hf]; [cbv -[get]; repeat first [apply passed_here | apply passed_later; [discriminate|]]|]).
    contradiction. }
  assert (M : arguments_match (sig_params inner) [] kw').
  { apply binds_spec. unfold kw', inner. clear - Hf. simpl in Hf.
    repeat (destruct Hf as [<-|Hf]; [reflexivity|]). contradiction. }
  split; [exact P|].
  split. { unfold outer. clear - Hf. simpl in Hf. repeat (destruct Hf as [<-|Hf]; [vm_compute; tauto|]). contradiction. }
  split. { unfold inner. clear - Hf. simpl in Hf. repeat (destruct Hf as [<-|Hf]; [vm_compute; tauto|]). contradiction. }
  assert (N : sig_name outer = fwd_outer f /\ sig_name inner = fwd_inner f).
  { unfold outer, inner. clear - Hf. simpl in Hf. repeat (destruct Hf as [<-|Hf]; [split; reflexivity|]). contradiction. }
  destruct N as [N1 N2].
  assert (F : fwd_body f inner_body kw = (match fwd_warning f with Some w => [Warned w] | None => [] end
       ++ Ran (fwd_inner f) :: fst (inner_body kw'), snd (inner_body kw'))).
  { unfold fwd_body, forward. fold inner. 
    destruct (call_accepts inner inner_body [] kw' o P W) as [A _]. specialize (A M).
    destruct (fwd_warning f); unfold warn; change (call inner inner_body [] (map _ (fwd_sources f))) with (call inner inner_body [] kw');
    rewrite A, N2; reflexivity. }
  rewrite F, N1. reflexivity.
Qed.

(** C54: the deprecated aliases *)
Section Alias.
Context {V B : Type} (normal_body : kwargs V -> outcome B) (one : obj V) (recip : obj V -> obj V).

Lemma alias_posterior_same x x2 n prior : well_typed prior (Single cNormalInverseGamma) ->
  let kw := [("x_total", x); ("x2_total", x2); ("n", n); ("prior", prior)] in
  let '(events, r) := call (sig_of "normal") normal_body [] kw in
  alias_posterior one recip normal_body [] kw =
    (Ran "normal_normal_inverse_gamma" :: Warned "This function is deprecated. Use 'normal' instead." :: events, r).
Proof.
  intros W kw. destruct (call (sig_of "normal") normal_body [] kw) as [ev r] eqn:E.
  unfold alias_posterior. 
  assert (I : is_instance prior (Single cNormalInverseGamma) = true) by (apply is_instance_spec; exact W).
  unfold call at 1, validate_type. change (get _ kw) with prior. change (sig_annotation _) with (Single cNormalInverseGamma).
  rewrite I. unfold py_function. change (binds _ [] kw) with true. cbv iota.
  match goal with |- context [fwd_body ?f ?b kw] => change (fwd_body f b kw) with
    (let '(ev, r) := call (sig_of (fwd_inner f)) b [] kw in (Warned match fwd_warning f with Some w => w | None => "" end :: ev, r)) end.
  change (sig_of (fwd_inner _)) with (sig_of "normal"). rewrite E. reflexivity.
Qed.

Lemma alias_predictive_same distribution : well_typed distribution (Single cNormalInverseGamma) ->
  let kw := [("distribution", distribution)] in
  let '(events, r) := call (sig_of "normal_predictive") normal_body [] kw in
  alias_predictive one recip normal_body [] kw =
    (Ran "normal_normal_inverse_gamma_predictive" :: Warned "This function is deprecated. Use 'normal_predictive' instead." :: events, r).
Proof.
  intros W kw. destruct (call (sig_of "normal_predictive") normal_body [] kw) as [ev r] eqn:E.
  unfold alias_predictive. 
  assert (I : is_instance distribution (Single cNormalInverseGamma) = true) by (apply is_instance_spec; exact W).
  unfold call at 1, validate_type. change (get _ kw) with distribution. change (sig_annotation _) with (Single cNormalInverseGamma).
  rewrite I. unfold py_function. change (binds _ [] kw) with true. cbv iota.
  match goal with |- context [fwd_body ?f ?b kw] => change (fwd_body f b kw) with
    (let '(ev, r) := call (sig_of (fwd_inner f)) b [] kw in (Warned match fwd_warning f with Some w => w | None => "" end :: ev, r)) end.
  change (sig_of (fwd_inner _)) with (sig_of "normal_predictive"). rewrite E. reflexivity.
Qed.

Lemma alias_rejects args kw o : passed "prior" kw o -> ~ well_typed o (Single cNormalInverseGamma) ->
  alias_posterior one recip normal_body args kw = ([], Raise (ValueError (wrong_type_message "prior" "NormalInverseGamma" (type_name o)))).
Proof. intros H W. exact (call_rejects (sig_of "normal_normal_inverse_gamma") _ args kw o _ eq_refl H W). Qed.
Lemma alias_predictive_rejects args kw o : passed "distribution" kw o -> ~ well_typed o (Single cNormalInverseGamma) ->
  alias_predictive one recip normal_body args kw = ([], Raise (ValueError (wrong_type_message "distribution" "NormalInverseGamma" (type_name o)))).
Proof. intros H W. exact (call_rejects (sig_of "normal_normal_inverse_gamma_predictive") _ args kw o _ eq_refl H W). Qed.
End Alias.

(** C54: values of the deprecated functions *)
Lemma alias_values (A M : Type) (NA : Num A) (x x2 n : A) (prior : NormalInverseGamma A M A) :
  normal_normal_inverse_gamma x x2 n prior
    = (["This function is deprecated. Use 'normal' instead."], normal x x2 n (PNIG prior)) /\
  normal_normal_inverse_gamma_predictive prior
    = (["This function is deprecated. Use 'normal_predictive' instead."], normal_predictive (PNIG prior)).
Proof. split; reflexivity. Qed.
