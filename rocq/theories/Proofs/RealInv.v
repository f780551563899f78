(** Real matrix inversion keeps shapes; a regression call with mixed layouts. *)

From mathcomp Require Import all_ssreflect all_algebra.
From Coq Require Import Reals List.
From Verif Require Import Model.Num Model.Py Model.Dists Model.Models Model.NdArray Model.MatrixModel.
From Verif Require Import Spec.ArrayShapes Proofs.Arrays Proofs.ArrayShapes.
Import ListNotations.

Definition real_inv := Proofs.Arrays.real_inv.

Lemma real_inv_keeps_shape : keeps_shape real_inv.
Proof.
  intros a b. unfold real_inv, Proofs.Arrays.real_inv. destruct (nd_shape a) as [|n [|n' [|]]]; try discriminate.
  destruct (Nat.eqb_spec n n') as [<-|]; [|discriminate]. now intros [= <-].
Qed.
Lemma real_inv_square n (a : nd R) : nd_shape a = [n; n]%list -> exists b, real_inv a = Ok b.
Proof. intros S. unfold real_inv, Proofs.Arrays.real_inv. rewrite S Nat.eqb_refl. eexists. reflexivity. Qed.


Lemma regression_layouts_refuted :
  exists (X y mu delta_inverse : nd R), nd_shape X = [3; 2] /\ nd_shape y = [3; 1] /\ nd_shape mu = [2] /\
  nd_shape delta_inverse = [2; 2] /\ exists post,
  linear_regression X y (mkNormalInverseGamma mu (scalar 1%Re) (scalar 1%Re) (Some delta_inverse) None) real_inv = Ok post /\
  nd_shape (NormalInverseGamma_mu post) = [2; 2] /\ nd_shape (NormalInverseGamma_beta post) = [2; 2].
Proof.
  pose one (s : list nat) : nd R := mkNd s (fun _ => 1%Re).
  exists (one [3; 2]), (one [3; 1]), (one [2]),
    (mkNd [2; 2] (fun i => if Nat.eqb (List.nth 0 i 0) (List.nth 1 i 0) then 1%Re else 0%Re)). do 4 (split; first reflexivity).
  by eexists; split; [reflexivity | split; reflexivity].
Qed.
