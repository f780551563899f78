(** Streams of data, averages, and limits of vectors and matrices. *)

From Coq Require Import Reals List.
From Coquelicot Require Import Coquelicot.
From mathcomp Require Import all_ssreflect all_algebra.
From Verif Require Import Analysis.RField Spec.Matrices Spec.Arrays.
Delimit Scope R_scope with Re.

Set Implicit Arguments.
Unset Strict Implicit.
Unset Printing Implicit Defensive.
Local Open Scope ring_scope.

(** Data sets [data 0], [data 1], ... that grow without bound *)
Definition unlimited T (data : nat -> list T) : Prop :=
  (forall N, data N <> nil) /\ is_lim_seq (fun N => INR (length (data N))) p_infty.

(** The average of [f] over a data set *)
Definition average T (f : T -> R) (data : list T) : R :=
  Rdiv (fold_right (fun x s => Rplus (f x) s) 0%Re data) (INR (length data)).

(** ... tends to [a] *)
Definition average_tends T (data : nat -> list T) (f : T -> R) (a : R) : Prop :=
  is_lim_seq (fun N => average f (data N)) a.

(** Every entry tends to that of [L] *)
Definition mx_lim m n (A : nat -> 'M[R]_(m, n)) (L : 'M[R]_(m, n)) : Prop :=
  forall i j, is_lim_seq (fun N => A N i j) (L i j).

(** What an observation of the regression leaves unexplained by the coefficients [beta] *)
Definition residual n (beta : 'cV[R]_n) (o : obs n) : R := (o.2 - (o.1^T *m beta) 0%R 0%R)%Re.
