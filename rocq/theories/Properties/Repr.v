(** C109: what [repr] writes can be read back. *)

From Coq Require Import ZArith Bool String Reals Lra.
From Verif Require Import Model.Num Model.Py Model.Table Model.NdArray Model.SliceModel Model.Dataclass Model.Repr.
From Verif Require Import Spec.Dataclass Spec.Repr Proofs.Repr.
From Coq Require Import List.
Import ListNotations.
Open Scope string_scope.
Open Scope list_scope.

(** C109: evaluating [repr(o)] of a distribution of any class, with fields that are numbers,
    flags, lists of numbers or None, calls the class of [o] with keywords that construct a
    distribution with the same fields, equal to [o]. *)
Theorem C109_round_trip :
  forall show show_array number fresh c names values xs,
  In (c, names) documented -> length values = length names -> Forall2 is_plain values xs -> Forall (printable show number) xs ->
  one_precision c (combine names values) ->
  exists kw o, read_call number fresh (repr show show_array (mkDobj c (combine names values))) = Some (c, kw) /\
    instantiate c [] kw = Ok o /\ d_class o = c /\ map fst (d_values o) = names /\ Forall2 is_plain (map snd (d_values o)) xs /\
    eq_objects (mkDobj c (combine names values)) o = Ok true.
Proof. exact round_trip. Qed.

(** C109: the same for whatever a call of a class, with positional arguments, keywords and
    defaults, has constructed. *)
Theorem C109_any_call :
  forall show show_array number fresh c args kw o xs,
  instantiate c args kw = Ok o -> Forall2 is_plain (map snd (d_values o)) xs -> Forall (printable show number) xs ->
  exists kw' o', read_call number fresh (repr show show_array o) = Some (c, kw') /\ instantiate c [] kw' = Ok o' /\
    map fst (d_values o') = map fst (d_values o) /\ Forall2 is_plain (map snd (d_values o')) xs /\ eq_objects o o' = Ok true.
Proof. exact round_trip_any. Qed.

(** C109: [repr] tells distributions apart: the same text means the same class and the same
    fields, kinds included ([==] does not tell [True] from [1]). *)
Theorem C109_injective :
  forall show show_array number c names values xs c' names' values' ys,
  In (c, names) documented -> length values = length names -> Forall2 is_plain values xs -> Forall (printable show number) xs ->
  In (c', names') documented -> length values' = length names' -> Forall2 is_plain values' ys -> Forall (printable show number) ys ->
  repr show show_array (mkDobj c (combine names values)) = repr show show_array (mkDobj c' (combine names' values')) ->
  c = c' /\ xs = ys.
Proof. exact repr_injective. Qed.

(** Two numbers and their texts *)
Definition show_two (r : R) : string := if Req_EM_T r 1 then "1" else "2.5".
Definition number_two (s : string) : option R := if String.eqb s "1" then Some 1%R else if String.eqb s "2.5" then Some 2.5%R else None.
Lemma show_one : show_two 1 = "1".
Proof. unfold show_two. destruct (Req_EM_T 1 1); [reflexivity|congruence]. Qed.
Lemma show_other : show_two 2.5 = "2.5".
Proof. unfold show_two. destruct (Req_EM_T 2.5 1); [lra|reflexivity]. Qed.
Lemma prints_two r : r = 1%R \/ r = 2.5%R -> prints show_two number_two r.
Proof. intros [->| ->]; unfold prints; rewrite ?show_one, ?show_other; repeat split; discriminate. Qed.
Definition at_address (i : nat) (r : R) : value := VParam i (PArr (scalar r)).

(** Normal(mu=1, sigma=2.5) *)
Example C109_case_text :
  repr show_two (fun _ => "") (mkDobj "Normal" [("mu", at_address 1 1); ("sigma", at_address 2 2.5)]) = "Normal(mu=1, sigma=2.5)" /\
  repr show_two (fun _ => "") (mkDobj "Dirichlet" [("alpha", VParam 3 (PList [1; 2.5]%R))]) = "Dirichlet(alpha=[1, 2.5])" /\
  read_call number_two 7 "Dirichlet(alpha=[1, 2.5])" = Some ("Dirichlet", [("alpha", VParam 7 (PList [1; 2.5]%R))]).
Proof. unfold repr, at_address. cbn. rewrite !show_one, !show_other. now repeat split. Qed.

(** NormalInverseGamma(mu=1, alpha=2.5, beta=1, delta_inverse=None, nu=2.5) *)
Definition case_values : list value := [at_address 1 1; at_address 2 2.5; at_address 3 1; VNone; at_address 4 2.5].
Example C109_case_round_trip :
  exists kw o, read_call number_two 9 (repr show_two (fun _ => "") (mkDobj "NormalInverseGamma" (combine ["mu"; "alpha"; "beta"; "delta_inverse"; "nu"] case_values))) = Some ("NormalInverseGamma", kw) /\
    instantiate "NormalInverseGamma" [] kw = Ok o.
Proof.
  destruct (C109_round_trip show_two (fun _ => "") number_two 9 "NormalInverseGamma" ["mu"; "alpha"; "beta"; "delta_inverse"; "nu"] case_values [Number 1; Number 2.5; Number 1; Nothing; Number 2.5]) as (kw & o & H1 & H2 & _).
  - simpl. tauto.
  - reflexivity.
  - repeat constructor; now eexists.
  - repeat constructor; apply prints_two; tauto.
  - intros _. left. split; [simpl; tauto|]. exists 4%nat, (PArr (scalar 2.5%R)). simpl. tauto.
  - now exists kw, o.
Qed.

(** BetaGeometric(1, beta=2.5) is written BetaGeometric(alpha=1, beta=2.5, one_start=True) *)
Example C109_case_any_call :
  exists o, instantiate "BetaGeometric" [at_address 1 1] [("beta", at_address 2 2.5)] = Ok o /\
    Forall2 is_plain (map snd (d_values o)) [Number 1; Number 2.5; Boolean true] /\
    Forall (printable show_two number_two) [Number 1; Number 2.5; Boolean true] /\
    repr show_two (fun _ => "") o = "BetaGeometric(alpha=1, beta=2.5, one_start=True)".
Proof.
  eexists. split; [reflexivity|]. split; [repeat constructor; now eexists|]. split; [repeat constructor; apply prints_two; tauto|].
  unfold repr, at_address. cbn. now rewrite show_one, show_other.
Qed.

(** Geometric(p=2.5, one_start=True) == Geometric(p=2.5, one_start=1), but they are written
    differently *)
Example C109_case_injective :
  let o := mkDobj "Geometric" [("p", at_address 1 2.5); ("one_start", VParam 2 (PFlag true))] in
  let o' := mkDobj "Geometric" [("p", at_address 1 2.5); ("one_start", at_address 3 1)] in
  eq_objects o o' = Ok true /\ repr show_two (fun _ => "") o <> repr show_two (fun _ => "") o'.
Proof.
  cbv zeta. split.
  - unfold eq_objects, at_address. cbn. unfold eqR, flag_number. destruct (Req_EM_T 1 1); [reflexivity|congruence].
  - intros H. destruct (C109_injective show_two (fun _ => "") number_two "Geometric" ["p"; "one_start"] [at_address 1 2.5; VParam 2 (PFlag true)] [Number 2.5; Boolean true] "Geometric" ["p"; "one_start"] [at_address 1 2.5; at_address 3 1] [Number 2.5; Number 1]) as [_ E]; try exact H; try reflexivity.
    + simpl. tauto.
    + repeat constructor; now eexists.
    + repeat constructor; apply prints_two; tauto.
    + simpl. tauto.
    + repeat constructor; now eexists.
    + repeat constructor; apply prints_two; tauto.
    + discriminate E.
Qed.

Print Assumptions C109_round_trip.
Print Assumptions C109_any_call.
Print Assumptions C109_injective.
