(** C71: calling the element-wise functions by name. *)

From Coq Require Import ZArith String Permutation Reals Lra Lia.
From Verif Require Import Model.Num Model.Py Model.Dists Model.Models Model.Table Model.Validate Model.ByName.
From Verif Require Import Spec.Interface Proofs.ByName.
From Coq Require Import List.
Import ListNotations.
Open Scope string_scope.
Open Scope list_scope.

(** C71: a proper call returns an instance of the documented class, whose
    attributes are the numbers the function computes from the arguments of those
    names: every keyword goes where its name says, omitted arguments are the
    documented defaults, through the functions that call other functions too. *)
Theorem C71_by_name :
  forall (A : Type) (NA : Num A) (U U' : Ufuncs A) (i : interface) (values : list A) (d : obj (pyval A)) (kw : kwargs (pyval A)),
  In i interfaces -> proper_call U U' i values d kw ->
  exists r vs, run U' (i_fn i) values = Ok vs /\ snd (python_call U (i_name i) [] kw) = Ok r /\ is_result i d r vs.
Proof. intros A NA U. exact (proper_call_run U). Qed.

(** normal_known_precision(prior=MyNormal(mu=5, sigma=1), precision=4, n=3, x_total=6),
    where MyNormal is a subclass of Normal with one more attribute *)
Definition number (a : R) : obj (pyval R) := OInst cfloat [] (VNum a).
Definition my_normal : obj (pyval R) := OInst (mkCls 200 "MyNormal") [cNormal; cContinuousPlotDistMixin; cPlotDistMixin; cSliceMixin]
  (VDist [("note", ANone); ("sigma", ANum 1%R); ("mu", ANum 5%R)]).
Definition my_call : kwargs (pyval R) :=
  [("prior", my_normal); ("precision", number 4); ("n", number 3); ("x_total", number 6)].
Definition precision_row : interface :=
  posterior "normal_known_precision" F_normal_known_precision ["x_total"; "n"; "precision"] cNormal ["mu"; "sigma"].
Ltac distinct := repeat constructor; simpl; intuition discriminate.
Example C71_case : forall U : Ufuncs R,
  In precision_row interfaces /\ proper_call U U precision_row [6; 3; 4; 5; 1]%R my_normal my_call.
Proof.
  intros U. split; [unfold interfaces; do 20 right; left; reflexivity|].
  split; [reflexivity|]. split; [distinct|].
  split. { intros k a H. simpl in H. left.
    repeat match type of H with _ \/ _ => destruct H as [H|H] end; try contradiction; try discriminate H; injection H as <- <-;
    (eexists; split; [unfold has, my_call; simpl; eauto 6|exists cfloat, []; reflexivity]). }
  split; [left; reflexivity|]. split.
  { eexists _, _, _. split; [reflexivity|]. split; [distinct|]. split; [right; left; reflexivity|].
    split; [intros o c' []|]. split; [|intros n k []]. intros n a H. simpl in H.
    repeat match type of H with _ \/ _ => destruct H as [H|H] end; try contradiction; injection H as <- <-; simpl; auto. }
  split; [exact I|]. intros k o H. simpl in H.
  repeat match type of H with _ \/ _ => destruct H as [H|H] end; try contradiction; injection H as <- _; simpl; auto 7.
Qed.

Print Assumptions C71_by_name.

(** C71: the order of the keywords does not matter, whatever the objects are. *)
Theorem C71_keyword_order :
  forall (A : Type) (NA : Num A) (U : Ufuncs A) (name : string) (positional : list (obj (pyval A))) (kw kw' : kwargs (pyval A)),
  Permutation kw kw' -> NoDup (map fst kw) -> python_call U name positional kw = python_call U name positional kw'.
Proof. intros A NA U. exact (python_call_perm U). Qed.

Example C71_case_order : NoDup (map fst my_call) /\ Permutation my_call (rev my_call).
Proof. split; [distinct|apply Permutation_rev]. Qed.

Print Assumptions C71_keyword_order.

(** C71: results can be used as priors: whenever the class of a result is the
    class another function (or the same one) takes, the result passes that
    function's check and has all attributes it needs, in particular a posterior
    is a prior for the next batch and an argument for the predictive function. *)
Theorem C71_results_are_priors :
  forall (A : Type) (i i' : interface) (d r : obj (pyval A)) (numbers : list (string * A)) (vs : list A),
  In i interfaces -> In i' interfaces -> feeds i i' -> is_prior i d numbers -> is_result i d r vs ->
  length vs = length (prior_names i') /\ is_prior i' r (combine (prior_names i') vs).
Proof. exact @result_prior. Qed.

(** the posterior above is an argument for normal_known_precision_predictive *)
Example C71_case_feeds : exists i', In i' interfaces /\ i_name i' = "normal_known_precision_predictive" /\ feeds precision_row i'.
Proof. eexists. split; [unfold interfaces; do 21 right; left; reflexivity|split; reflexivity]. Qed.

Print Assumptions C71_results_are_priors.

(** C71: a prior of the right class that lacks an attribute the function reads (an
    instance of a user's subclass of [Gamma] whose constructor does not set it)
    makes the call raise the AttributeError of the first attribute missing. *)
Theorem C71_missing_attribute : forall {A : Type} {NA : Num A} (U : Ufuncs A) f k c sup fields c1 s1 c2 s2 (x n : A) name,
  In (f, k) [("poisson_gamma", "x_total"); ("exponential_gamma", "x_total")] ->
  In cGamma (c :: sup) -> NoDup (map fst fields) ->
  (name = "alpha" \/ name = "beta" /\ exists a, In ("alpha", ANum a) fields) -> (forall a, ~ In (name, a) fields) ->
  snd (python_call U f [] [(k, OInst c1 s1 (VNum x)); ("n", OInst c2 s2 (VNum n)); ("prior", OInst c sup (VDist fields))]) = Raise (AttributeError name).
Proof. exact @missing_attribute. Qed.

(** a Gamma without its rate *)
Example C71_case_missing : let fields : list (string * attr R) := [("alpha", ANum 2%R)] in
  In cGamma [cGamma] /\ NoDup (map fst fields) /\ (exists a, In ("alpha", ANum a) fields) /\ (forall a, ~ In ("beta", a) fields).
Proof.
  cbv zeta. split; [now left|]. split; [constructor; [intros []|constructor]|]. split; [exists 2%R; now left|].
  intros a [H|[]]. discriminate H.
Qed.

Print Assumptions C71_missing_attribute.
