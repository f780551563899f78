(** C36 and C54: the validation decorators and the deprecated aliases. *)

From Coq Require Import String List.
From Verif Require Import Model.Num Model.Py Model.Dists Model.Models Model.Validate Spec.TypeCheck Proofs.Validate.
Import ListNotations.
Open Scope string_scope.

Definition a_beta : obj unit := OInst cBeta [cContinuousPlotDistMixin; cPlotDistMixin; cSliceMixin] tt.
Definition a_gamma : obj unit := OInst cGamma [cContinuousPlotDistMixin; cPlotDistMixin; cSliceMixin] tt.
(** an instance of a user-defined subclass of Beta *)
Definition a_sub_beta : obj unit := OInst (mkCls 1000 "MyBeta") [cBeta; cContinuousPlotDistMixin; cPlotDistMixin; cSliceMixin] tt.
Definition a_number : obj unit := OInst (mkCls 1001 "float") [] tt.

(** C36: with an instance of the annotated class (subclasses included) the body
    runs on the very same keyword arguments; Python's own argument binding then
    decides. *)
Theorem C36_accepts :
  forall (V B : Type) (s : signature) (body : kwargs V -> outcome B) (args : list (obj V)) (kw : kwargs V) (o : obj V),
  passed (sig_parameter s) kw o -> well_typed o (sig_annotation s) ->
  (arguments_match (sig_params s) args kw ->
     call s body args kw = (Ran (sig_name s) :: fst (body kw), snd (body kw))) /\
  (~ arguments_match (sig_params s) args kw -> call s body args kw = ([], Raise (TypeError "wrong arguments"))).
Proof. exact @call_accepts. Qed.

Example C36_case_subclass :
  In (sig_of "binomial_beta") signatures /\ well_typed a_sub_beta (sig_annotation (sig_of "binomial_beta")) /\
  arguments_match (sig_params (sig_of "binomial_beta")) [] [("n", a_number); ("x", a_number); ("prior", a_sub_beta)].
Proof.
  split; [vm_compute; auto|]. split; [apply is_instance_spec; reflexivity|apply binds_spec; reflexivity].
Qed.

Print Assumptions C36_accepts.

(** C36: with anything else, or nothing, a function annotated with one class
    raises ValueError naming both types, and nothing runs. *)
Theorem C36_rejects :
  forall (V B : Type) (s : signature) (body : kwargs V -> outcome B) (args : list (obj V)) (kw : kwargs V) (o : obj V) (c : cls),
  sig_annotation s = Single c -> passed (sig_parameter s) kw o -> ~ well_typed o (sig_annotation s) ->
  call s body args kw = ([], Raise (ValueError (wrong_type_message (sig_parameter s) (cls_name c) (type_name o)))).
Proof. exact @call_rejects. Qed.

Example C36_case_rejects :
  call (sig_of "binomial_beta") (fun _ => ([], Ok tt)) [] [("n", a_number); ("x", a_number); ("prior", a_gamma)]
  = ([], Raise (ValueError "Expected prior to be of type 'Beta', got 'Gamma' instead.")) /\
  call (sig_of "binomial_beta") (fun _ => ([], Ok tt)) [a_number; a_number; a_beta] []
  = ([], Raise (ValueError "Expected prior to be of type 'Beta', got 'NoneType' instead.")).
Proof. split; reflexivity. Qed.

Print Assumptions C36_rejects.

(** C36: the body runs exactly when the value is well typed and the arguments match. *)
Theorem C36_runs_iff :
  forall (V B : Type) (s : signature) (body : kwargs V -> outcome B) (args : list (obj V)) (kw : kwargs V) (o : obj V),
  passed (sig_parameter s) kw o ->
  (fst (call s body args kw) <> [] <-> well_typed o (sig_annotation s) /\ arguments_match (sig_params s) args kw).
Proof. exact @call_runs_iff. Qed.

Print Assumptions C36_runs_iff.

(** C36 for functions annotated with a Union: formatting the message fails, so
    every ill typed value raises AttributeError. *)
Theorem C36_union_raises_AttributeError :
  forall (V B : Type) (s : signature) (body : kwargs V -> outcome B) (args : list (obj V)) (kw : kwargs V) (o : obj V) (cs : list cls),
  sig_annotation s = Union cs -> passed (sig_parameter s) kw o -> ~ well_typed o (sig_annotation s) ->
  call s body args kw = ([], Raise (AttributeError "'types.UnionType' object has no attribute '__name__'")).
Proof. exact @call_rejects_union. Qed.

Print Assumptions C36_union_raises_AttributeError.

(** C36 is therefore false for these five functions (and only these). *)
Theorem C36_ValueError_refuted :
  exists s kw, In s signatures /\ passed (sig_parameter s) kw a_beta /\ ~ well_typed a_beta (sig_annotation s) /\
  forall body : kwargs unit -> outcome unit, ~ exists msg, snd (call s body [] kw) = Raise (ValueError msg).
Proof.
  exists (sig_of "normal"), [("prior", a_beta)]. split; [vm_compute; tauto|]. split; [constructor|].
  assert (W : ~ well_typed a_beta (sig_annotation (sig_of "normal"))).
  { intros W. apply is_instance_spec in W. discriminate W. }
  split; [exact W|]. intros body [msg H].
  rewrite (@call_rejects_union unit unit (sig_of "normal") body [] [("prior", a_beta)] a_beta _ eq_refl (passed_here _ _ _) W) in H.
  discriminate H.
Qed.

Print Assumptions C36_ValueError_refuted.

Theorem C36_union_functions :
  map sig_name (filter (fun s => is_union (sig_annotation s)) signatures) =
  ["normal_known_mean"; "normal_known_mean_predictive"; "normal"; "normal_predictive"; "log_normal"].
Proof. exact union_functions. Qed.

Print Assumptions C36_union_functions.

(** C36: every decorated function validates one of its own required parameters. *)
Theorem C36_signatures :
  forall s, In s signatures ->
  In (sig_parameter s, true) (sig_params s) /\ (sig_parameter s = "prior" \/ sig_parameter s = "distribution") /\
  NoDup (map fst (sig_params s)) /\ admitted (sig_annotation s) <> [].
Proof. exact signatures_wf. Qed.

Print Assumptions C36_signatures.

(** C36: of the library's own distribution classes a function accepts exactly
    those its annotation names. *)
Theorem C36_library_classes :
  forall (V : Type) (v : V) s c sup, In s signatures -> In (c, sup) library ->
  (well_typed (OInst c sup v) (sig_annotation s) <-> In c (admitted (sig_annotation s))).
Proof. exact @library_accepted. Qed.

Example C36_case_library : In (cGamma, [cContinuousPlotDistMixin; cPlotDistMixin; cSliceMixin]) library.
Proof. vm_compute; tauto. Qed.

Print Assumptions C36_library_classes.

(** C36: the message names the class by the name it has in the source, and so tells the
    library's classes apart. *)
Theorem C36_message_names : map (fun cs => cls_name (fst cs)) library = class_names /\
  forall parameter expected c c', In c library -> In c' library ->
  wrong_type_message parameter expected (cls_name (fst c)) = wrong_type_message parameter expected (cls_name (fst c')) -> c = c'.
Proof. exact (conj library_names message_tells). Qed.

Print Assumptions C36_message_names.

(** C36: functions that call another decorated function pass the prior on, and
    the second validation never rejects what the first accepted. *)
Theorem C36_forwarders :
  forall (V B : Type) (one : obj V) (recip : obj V -> obj V) (f : forwarder V) (inner_body : kwargs V -> outcome B)
    (args : list (obj V)) (kw : kwargs V) (o : obj V),
  let outer := sig_of (fwd_outer f) in let inner := sig_of (fwd_inner f) in
  In f (forwarders one recip) -> passed (sig_parameter outer) kw o ->
  well_typed o (sig_annotation outer) -> arguments_match (sig_params outer) args kw ->
  exists kw', passed (sig_parameter inner) kw' o /\ In outer signatures /\ In inner signatures /\
  call outer (fwd_body f inner_body) args kw =
    (Ran (fwd_outer f) :: match fwd_warning f with Some w => [Warned w] | None => [] end
       ++ Ran (fwd_inner f) :: fst (inner_body kw'), snd (inner_body kw')).
Proof. exact @forwarders_run. Qed.

Example C36_case_forwarder :
  call (sig_of "bernoulli_beta") (fwd_body (fwd_of a_number (fun o => o) "bernoulli_beta") (fun kw => ([], Ok (length kw))))
    [] [("x", a_number); ("prior", a_beta)]
  = ([Ran "bernoulli_beta"; Ran "binomial_beta"], Ok 3).
Proof. reflexivity. Qed.

Print Assumptions C36_forwarders.

(** C54: the deprecated posterior function warns and then is [normal]. *)
Theorem C54_alias_posterior :
  forall (V B : Type) (normal_body : kwargs V -> outcome B) (one : obj V) (recip : obj V -> obj V) (x x2 n prior : obj V),
  well_typed prior (Single cNormalInverseGamma) ->
  let kw := [("x_total", x); ("x2_total", x2); ("n", n); ("prior", prior)] in
  let '(events, r) := call (sig_of "normal") normal_body [] kw in
  alias_posterior one recip normal_body [] kw =
    (Ran "normal_normal_inverse_gamma" :: Warned "This function is deprecated. Use 'normal' instead." :: events, r).
Proof. exact @alias_posterior_same. Qed.

Example C54_case : well_typed (OInst cNormalInverseGamma [] tt) (Single cNormalInverseGamma).
Proof. apply is_instance_spec. reflexivity. Qed.

Print Assumptions C54_alias_posterior.

(** C54: the deprecated predictive function warns and then is [normal_predictive]. *)
Theorem C54_alias_predictive :
  forall (V B : Type) (normal_body : kwargs V -> outcome B) (one : obj V) (recip : obj V -> obj V) (distribution : obj V),
  well_typed distribution (Single cNormalInverseGamma) ->
  let kw := [("distribution", distribution)] in
  let '(events, r) := call (sig_of "normal_predictive") normal_body [] kw in
  alias_predictive one recip normal_body [] kw =
    (Ran "normal_normal_inverse_gamma_predictive"
     :: Warned "This function is deprecated. Use 'normal_predictive' instead." :: events, r).
Proof. exact @alias_predictive_same. Qed.

Print Assumptions C54_alias_predictive.

(** C54: they accept nothing but NormalInverseGamma, and do not warn when they refuse. *)
Theorem C54_aliases_reject :
  forall (V B : Type) (body : kwargs V -> outcome B) (one : obj V) (recip : obj V -> obj V) (args : list (obj V)) (kw : kwargs V) (o : obj V),
  ~ well_typed o (Single cNormalInverseGamma) ->
  (passed "prior" kw o -> alias_posterior one recip body args kw
     = ([], Raise (ValueError (wrong_type_message "prior" "NormalInverseGamma" (type_name o))))) /\
  (passed "distribution" kw o -> alias_predictive one recip body args kw
     = ([], Raise (ValueError (wrong_type_message "distribution" "NormalInverseGamma" (type_name o))))).
Proof. intros V B body one recip args kw o W. split; intros H; [exact (alias_rejects body one recip args kw o H W)|exact (alias_predictive_rejects body one recip args kw o H W)]. Qed.

(** a NormalGamma prior, which [normal] itself accepts *)
Example C54_case_reject :
  let o := OInst cNormalGamma [] tt in
  ~ well_typed o (Single cNormalInverseGamma) /\ well_typed o (sig_annotation (sig_of "normal")).
Proof.
  split; [intros W; apply is_instance_spec in W; discriminate W | apply is_instance_spec; reflexivity].
Qed.

Print Assumptions C54_aliases_reject.

(** C54: the values: the deprecated functions return what [normal] and
    [normal_predictive] return, in any number system, with one warning that
    names the replacement. *)
Theorem C54_values :
  forall (A M : Type) (NA : Num A) (x x2 n : A) (prior : NormalInverseGamma A M A),
  normal_normal_inverse_gamma x x2 n prior
    = (["This function is deprecated. Use 'normal' instead."], normal x x2 n (PNIG prior)) /\
  normal_normal_inverse_gamma_predictive prior
    = (["This function is deprecated. Use 'normal_predictive' instead."], normal_predictive (PNIG prior)).
Proof. exact alias_values. Qed.

Print Assumptions C54_values.
