(** What the operators are expected to do with distributions. *)

From Coq Require Import Reals String.
From Verif Require Import Model.Py Model.Operators Spec.Convolution.
From Coq Require Import List.
Import ListNotations.
Open Scope R_scope.

(** Instances with numbers as parameters. *)
Definition exponential (lam : R) := Obj CExponential [("lam"%string, Nr lam)].
Definition gamma (alpha beta : R) := Obj CGamma [("alpha"%string, Nr alpha); ("beta"%string, Nr beta)].
Definition negative_binomial (n p : R) := Obj CNegativeBinomial [("n"%string, Nr n); ("p"%string, Nr p)].
Definition poisson (lam : R) := Obj CPoisson [("lam"%string, Nr lam)].
Definition normal (mu sigma : R) := Obj CNormal [("mu"%string, Nr mu); ("sigma"%string, Nr sigma)].
Definition array (l : list R) := Arr (map Nr l).

(** A number or an array of numbers. *)
Definition numeric (v : pyval) : Prop :=
  (exists x, v = Nr x) \/ (exists l, v = array l).
(** An instance whose parameters are such. *)
Definition proper (v : pyval) : Prop :=
  exists c fs, v = Obj c fs /\ Forall (fun p => numeric (snd p)) fs.

(** Member [i] of an instance with array parameters (distributions.py: the instance sliced at [i]). *)
Definition pick (i : nat) (v : pyval) : pyval :=
  match v with Arr l => nth i l (Nr 0) | _ => v end.
Definition member (i : nat) (v : pyval) : pyval :=
  match v with Obj c fs => Obj c (map (fun p => (fst p, pick i (snd p))) fs) | _ => v end.

(** The law of the sum of independent counts. *)
Fixpoint sum_law (laws : list (nat -> R)) : nat -> R :=
  match laws with
  | [] => fun k => if Nat.eq_dec k 0 then 1 else 0
  | f :: rest => convN f (sum_law rest)
  end.

(** The classes with [*], holding numbers. *)
Definition scalable (d : pyval) : Prop :=
  (exists lam, d = exponential lam) \/ (exists a b, d = gamma a b) \/ (exists n p, d = negative_binomial n p) \/
  (exists lam, d = poisson lam) \/ (exists mu s, d = normal mu s).

Definition has_plus (v : pyval) : bool := match v with Obj CPoisson _ => true | _ => false end.
Definition is_array (v : pyval) : bool := match v with Arr _ => true | _ => false end.
Definition is_number (v : pyval) : bool := match v with Nr _ => true | _ => false end.
