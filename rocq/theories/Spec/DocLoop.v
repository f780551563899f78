(** What updating batch by batch means. *)

From Coq Require Import ZArith String Reals.
From Verif Require Import Model.Num Model.Py Model.Table Model.Validate Model.ByName Spec.Interface.
From Coq Require Import List.
Import ListNotations.
Open Scope string_scope.
Open Scope list_scope.

Section Chain.
Context {A : Type} {NA : Num A}.

(** The parameters after each batch: the function of the numbers of the batch and the
    parameters before it *)
Fixpoint chain (U : Ufuncs A) (f : fn) (batches : list (list A)) (parameters : list A) : res (list (list A)) :=
  match batches with
  | [] => Ok []
  | data :: batches =>
      let* after := run U f (data ++ parameters) in
      let* later := chain U f batches after in
      Ok (after :: later)
  end.

Definition arg_names (i : interface) : list string :=
  flat_map (fun s => match s with Arg n => [n] | Attr _ => [] end) (i_slots i).
(** Keywords that give the numbers [data] of a call of [i], and perhaps its options, but no prior *)
Definition gives (U U' : Ufuncs A) (i : interface) (data : list A) (kw : kwargs (pyval A)) : Prop :=
  length data = length (arg_names i) /\ NoDup (map fst kw) /\
  (forall k a, In (k, a) (combine (arg_names i) data) -> exists o, In (k, o) kw /\ is_num o a) /\
  optional_args U U' kw (i_fn i) /\
  (forall k o, In (k, o) kw -> In k (arg_names i) \/ In k (optional_names (i_fn i))).
(** [o] is an instance of the class of the prior with these parameters *)
Definition has_parameters (i : interface) (o : obj (pyval A)) (parameters : list A) : Prop :=
  length parameters = length (prior_names i) /\ is_prior i o (combine (prior_names i) parameters).
End Chain.

(** the numbers before, after, ... : 0 + n1, 0 + n1 + n2, ... *)
Definition running (sizes : list nat) : list nat := map (fun k => list_sum (firstn (S k) sizes)) (seq 0 (length sizes)).
