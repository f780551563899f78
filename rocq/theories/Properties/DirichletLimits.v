(** C84: the predictives of the Dirichlet models with unlimited data (their posterior
    means and variances are in C80_consistent). *)

From Coq Require Import Reals Lra Lia.
From Coquelicot Require Import Coquelicot.
From Verif Require Import Model.Num Model.Py Model.NdArray Model.DirichletModel.
From Verif Require Import Spec.Special Spec.Densities Spec.Bayes Spec.Moments Spec.Simplex Spec.Containers Spec.Prequential Spec.Calibration Spec.SimplexMoments.
From Verif Require Import Proofs.Prequential Proofs.Calibration Proofs.SimplexMoments Proofs.DirichletMore Proofs.DirichletLimit.
From Coq Require Import List.
Import ListNotations.
Open Scope R_scope.

(** C84: if the observed fraction of every category converges, the predicted probability
    of every vector of counts converges to the multinomial probability. *)
Theorem C84_multinomial_dirichlet_predictive :
  forall (n : nat) (a : nd R) (X : nat -> list nat) (out : nat -> nd R) (p : list R),
  nd_shape a = [S n] -> Forall (fun v => 0 < v) (flat (S n) a) ->
  (forall N, length (X N) = S n /\ sumN (X N) = N) ->
  (forall N, multinomial_dirichlet (CArr (as_array (map INR (X N)))) (CArr a) = Ok (mkDirichlet (OVal (CArr (out N))))) ->
  length p = S n -> (forall i, (i <= n)%nat -> is_lim_seq (fun N => INR (nth i (X N) 0%nat) / INR N) (nth i p 0)) ->
  forall x, length x = S n ->
  is_lim_seq (fun N => let P := multinomial_dirichlet_predictive (Some (INR (sumN x))) (mkDirichlet (OVal (CArr (out N)))) in
      dirichlet_multinomial_pmf (alphas n (DirichletMultinomial_alpha P)) (Rnat (DirichletMultinomial_n P)) x)
    (multinomial_pmf p x).
Proof. exact multinomial_predictive_limit. Qed.

(** the second of two categories in every other observation *)
Example C84_multinomial_dirichlet_case :
  let X N := [N - N / 2; N / 2]%nat in (forall N, length (X N) = 2%nat /\ sumN (X N) = N) /\
  is_lim_seq (fun N => INR (nth 0 (X N) 0%nat) / INR N) (/ 2) /\ is_lim_seq (fun N => INR (nth 1 (X N) 0%nat) / INR N) (/ 2) /\
  multinomial_pmf [/ 2; / 2] [1; 1]%nat = / 2.
Proof. exact halves_case. Qed.

Print Assumptions C84_multinomial_dirichlet_predictive.

(** C84: the same for the category of the next observation *)
Theorem C84_categorical_dirichlet_predictive :
  forall (n : nat) (a : nd R) (X : nat -> list nat) (out : nat -> nd R) (p : list R),
  nd_shape a = [S n] -> Forall (fun v => 0 < v) (flat (S n) a) ->
  (forall N, length (X N) = S n /\ sumN (X N) = N) ->
  (forall N, categorical_dirichlet (CArr (as_array (map INR (X N)))) (CArr a) = Ok (mkDirichlet (OVal (CArr (out N))))) ->
  length p = S n -> (forall i, (i <= n)%nat -> is_lim_seq (fun N => INR (nth i (X N) 0%nat) / INR N) (nth i p 0)) ->
  forall k, (k <= n)%nat ->
  is_lim_seq (fun N => let P := categorical_dirichlet_predictive None (mkDirichlet (OVal (CArr (out N)))) in
      dirichlet_multinomial_pmf (alphas n (DirichletMultinomial_alpha P)) (Rnat (DirichletMultinomial_n P)) (counts n [k]))
    (categorical_pmf p k).
Proof. exact categorical_predictive_limit. Qed.

Print Assumptions C84_categorical_dirichlet_predictive.
