(** Reading scalars off vectors: the data and the parameters of one coordinate. *)

From Coq Require Import Reals List.
From mathcomp Require Import all_ssreflect all_algebra.
From Verif Require Import Analysis.RField Spec.Matrices Spec.Arrays.
Delimit Scope R_scope with Re.

Set Implicit Arguments.
Unset Strict Implicit.
Unset Printing Implicit Defensive.
Local Open Scope ring_scope.

(** The i-th coordinate of every observation *)
Definition coord n (i : 'I_n) (xs : list 'cV[R]_n) : list R := List.map (fun x : 'cV[R]_n => x i 0) xs.

(** The variances of coordinates with the standard deviations [sd] *)
Definition vars n (sd : 'rV[R]_n) : 'rV[R]_n := \row_i (sd 0%R i ^ 2)%Re.

(** Numbers as vectors of length one *)
Definition col1 (l : list R) : list 'cV[R]_1 := List.map (fun x => x%:M) l.

(** Numbers as the responses to the constant covariate 1 *)
Definition ones (data : list R) : list (obs 1) := List.map (fun x => (1%:M, x)) data.
