(** Total mass, means and covariances of densities of vectors and matrices. *)

From Coq Require Import Reals List.
From Coquelicot Require Import Coquelicot.
From mathcomp Require Import all_ssreflect all_algebra.
From Verif Require Import Analysis.RField Model.Py Model.Dists Model.ScipyDist Model.NdArray Model.MatrixModel
  Spec.Densities Spec.Matrices Spec.Wishart Spec.Arrays Spec.PrequentialArrays.
Delimit Scope R_scope with Re.

Set Implicit Arguments.
Unset Strict Implicit.
Unset Printing Implicit Defensive.
Local Open Scope ring_scope.

(** The density of the scipy distribution behind an InverseWishart *)
Definition iw_pdf_of n (d : InverseWishart (nd R)) (S : 'M[R]_n) : R :=
  match InverseWishart_dist d with
  | S_invwishart df scale => iw_pdf (num_of df) (mx_of n n scale) S
  | _ => 0
  end.

(** [f] is a density: of vectors; of vectors and positive numbers; of positive
    definite matrices; of vectors and positive definite matrices *)
Definition is_vec_density n (f : 'cV[R]_n -> R) : Prop := (forall x, Rle 0%Re (f x)) /\ is_vec_int f 1%Re.
Definition is_vec_pos_density n (f : 'cV[R]_n * R -> R) : Prop :=
  (forall p, Rlt 0%Re p.2 -> Rle 0%Re (f p)) /\ over_vec_pos f 1%Re.
Definition is_cone_density n (f : 'M[R]_n -> R) : Prop :=
  (forall S, posdef S -> Rle 0%Re (f S)) /\ is_cone_int f 1%Re.
Definition is_vec_cone_density n (f : 'cV[R]_n * 'M[R]_n -> R) : Prop :=
  (forall p, posdef p.2 -> Rle 0%Re (f p)) /\ over_vec_cone f 1%Re.

(** The mean of every coordinate, the covariance of every two *)
Definition is_vec_mean n (f : 'cV[R]_n -> R) (mu : 'cV[R]_n) : Prop :=
  forall i, is_vec_int (fun x => (x i 0%R * f x)%Re) (mu i 0).
Definition is_vec_cov n (f : 'cV[R]_n -> R) (S : 'M[R]_n) : Prop :=
  exists mu, is_vec_mean f mu /\
    forall i j, is_vec_int (fun x => ((x i 0%R - mu i 0%R) * (x j 0%R - mu j 0%R) * f x)%Re) (S i j).
(** The mean of every entry of a random matrix *)
Definition is_cone_mean n (f : 'M[R]_n -> R) (M : 'M[R]_n) : Prop :=
  forall i j, is_cone_int (fun S => (S i j * f S)%Re) (M i j).
(** A vector that comes with a positive number: the means of both *)
Definition is_vec_pos_mean n (f : 'cV[R]_n * R -> R) (m : 'cV[R]_n * R) : Prop :=
  (forall i, over_vec_pos (fun p => (p.1 i 0%R * f p)%Re) (m.1 i 0)) /\
  over_vec_pos (fun p => (p.2 * f p)%Re) m.2.
(** A vector that comes with a matrix: the means of both *)
Definition is_vec_cone_mean n (f : 'cV[R]_n * 'M[R]_n -> R) (m : 'cV[R]_n * 'M[R]_n) : Prop :=
  (forall i, over_vec_cone (fun p => (p.1 i 0%R * f p)%Re) (m.1 i 0)) /\
  (forall i j, over_vec_cone (fun p => (p.2 i j * f p)%Re) (m.2 i j)).

(** The means of the posteriors, weighted by the predicted densities of the
    observations, add up to the mean of the prior, in every coordinate. *)
Definition means_calibrated {D O T : Type} (coords : (T -> R) -> Prop) (Sum : (O -> R) -> R -> Prop) (mean : D -> T -> Prop)
  (update : D -> O -> res D) (predict : D -> O -> res R) (ok : D -> Prop) : Prop :=
  forall d, ok d -> exists m, mean d m /\ forall coord, coords coord -> exists w : O -> R,
    (forall o, exists p d' m', predict d o = Ok p /\ update d o = Ok d' /\ mean d' m' /\ w o = (p * coord m')%Re) /\
    Sum w (coord m).
Definition vec_coords n (c : 'cV[R]_n -> R) : Prop := exists i, c = fun m => m i 0.
Definition vec_pos_coords n (c : 'cV[R]_n * R -> R) : Prop := (exists i, c = fun m => m.1 i 0) \/ c = fun m => m.2.
Definition vec_cone_coords n (c : 'cV[R]_n * 'M[R]_n -> R) : Prop :=
  (exists i, c = fun m => m.1 i 0) \/ (exists i j, c = fun m => m.2 i j).

(** Priors whose means exist *)
Definition nig_mean_ok n (l : layout) (d : NormalInverseGamma (nd R) (nd R) (nd R)) : Prop :=
  exists (mu : 'cV[R]_n) (Di : 'M[R]_n) a b, holds_nig l d mu Di a b /\ posdef Di /\ Rlt 1%Re a /\ Rlt 0%Re b.
Definition niw_mean_ok n (d : NormalInverseWishart (nd R)) : Prop :=
  exists (mu : 'cV[R]_n) k nu (psi : 'M[R]_n), holds_niw d mu k nu psi /\ posdef psi /\ Rlt (INR n + 1)%Re nu /\ Rlt 0%Re k.
