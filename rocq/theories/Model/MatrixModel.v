(** The functions of /repo/conjugate/models.py that use matrices, over numpy
    arrays (Model/NdArray.v): every operator checks shapes as numpy does, and
    the first exception in evaluation order wins.

    Matrix inversion, [np.eye] and [np.outer] are arguments of the Python
    functions (with numpy defaults) and are arguments here.  Not modelled:
    dtypes, rounding, and the memory layout of views. *)

From Coq Require Import ZArith Bool List String.
From Verif Require Import Model.Num Model.Py Model.Dists Model.Models Model.Table Model.NdArray.
Import ListNotations.
Local Open Scope num_scope.

Section Linalg.
Context {A : Type} {NA : Num A}.

(** f 0 + f 1 + ... + f (n-1), from left to right *)
Definition nsum (n : nat) (f : nat -> A) : A := fold_left nadd (map f (seq 0 n)) (nlit 0).

Definition mismatch : exn := ValueError "matmul: Input operand has a mismatch in its core dimension".

(** numpy.matmul ([a @ b]): one-dimensional operands are a row on the left and a
    column on the right, further leading dimensions broadcast. *)
Definition matmul_nd (a b : nd A) : res (nd A) :=
  match rev (nd_shape a), rev (nd_shape b) with
  | [], _ | _, [] => Raise (ValueError "matmul: Input operand does not have enough dimensions")
  | [k], [k'] =>
      if Nat.eqb k k' then
        Ok (mkNd [] (fun _ => nsum k (fun t => nd_entry a [t] * nd_entry b [t])))
      else Raise mismatch
  | [k], n :: k' :: s =>
      if Nat.eqb k k' then
        Ok (mkNd (rev s ++ [n])
                 (fun i => nsum k (fun t => nd_entry a [t] * nd_entry b (removelast i ++ [t; last i 0%nat]))))
      else Raise mismatch
  | k :: m :: s, [k'] =>
      if Nat.eqb k k' then
        Ok (mkNd (rev s ++ [m]) (fun i => nsum k (fun t => nd_entry a (i ++ [t]) * nd_entry b [t])))
      else Raise mismatch
  | k :: m :: s, n :: k' :: s' =>
      if Nat.eqb k k' then
        match broadcast_shapes (rev s) (rev s') with
        | None => Raise (ValueError "operands could not be broadcast together")
        | Some u =>
            Ok (mkNd (u ++ [m; n]) (fun i =>
                  let batch := removelast (removelast i) in
                  let row := last (removelast i) 0%nat in
                  let col := last i 0%nat in
                  nsum k (fun t => nd_entry a (rev (proj s (rev batch)) ++ [row; t])
                                   * nd_entry b (rev (proj s' (rev batch)) ++ [t; col]))))
        end
      else Raise mismatch
  end.

(** ndarray.T: all axes reversed *)
Definition transpose_nd (a : nd A) : nd A := mkNd (rev (nd_shape a)) (fun i => nd_entry a (rev i)).

(** a.shape[0] *)
Definition shape0 (a : nd A) : res nat :=
  match nd_shape a with [] => Raise IndexError | n :: _ => Ok n end.

(** a.mean(axis=0).  For an array without rows numpy returns nan with a warning;
    here the division by the number of rows is left to the number type. *)
Definition mean0 (a : nd A) : res (nd A) :=
  match nd_shape a with
  | [] => Raise (ValueError "axis 0 is out of bounds for array of dimension 0")
  | n :: s => Ok (mkNd s (fun i => nsum n (fun t => nd_entry a (t :: i)) / nlit (Z.of_nat n)))
  end.

(** np.eye(n) *)
Definition np_eye (n : nat) : res (nd A) :=
  Ok (mkNd [n; n] (fun i => match i with
                            | [r; c] => if Nat.eqb r c then nlit 1 else nlit 0
                            | _ => nlit 0 end)).

(** a.ravel(), in C order *)
Definition size (s : list nat) : nat := fold_right Nat.mul 1%nat s.
Fixpoint unravel (s : list nat) (k : nat) : list nat :=
  match s with
  | [] => []
  | d :: s' => Nat.div k (size s') :: unravel s' (Nat.modulo k (size s'))
  end.
Definition ravel (a : nd A) : nd A :=
  mkNd [size (nd_shape a)] (fun i => nd_entry a (unravel (nd_shape a) (nth 0 i 0%nat))).
(** np.outer(a, b) *)
Definition np_outer (a b : nd A) : res (nd A) :=
  let a := ravel a in let b := ravel b in
  Ok (mkNd (nd_shape a ++ nd_shape b)
           (fun i => nd_entry a (firstn 1 i) * nd_entry b (skipn 1 i))).

(** Operators on the results of evaluation *)
Definition matmul (a b : res (nd A)) : res (nd A) := let* a := a in let* b := b in matmul_nd a b.
Definition transpose (a : res (nd A)) : res (nd A) := rmap transpose_nd a.
Definition int (n : nat) : res (nd A) := Ok (scalar (nlit (Z.of_nat n))).

End Linalg.

Infix "@@" := matmul (at level 40, left associativity) : num_scope.

(** distributions.py:464-475 *)
Record MultivariateNormal M := mkMultivariateNormal { MultivariateNormal_mu : M; MultivariateNormal_cov : M }.
(** distributions.py:690-705 *)
Record MultivariateStudentT M := mkMultivariateStudentT
  { MultivariateStudentT_mu : M; MultivariateStudentT_sigma : M; MultivariateStudentT_nu : M }.
(** distributions.py:1083-1094 *)
Record InverseWishart M := mkInverseWishart { InverseWishart_nu : M; InverseWishart_psi : M }.
(** distributions.py:1205-1220 *)
Record NormalInverseWishart M := mkNormalInverseWishart
  { NormalInverseWishart_mu : M; NormalInverseWishart_kappa : M;
    NormalInverseWishart_nu : M; NormalInverseWishart_psi : M }.
Arguments mkMultivariateNormal {M}. Arguments MultivariateNormal_mu {M}. Arguments MultivariateNormal_cov {M}.
Arguments mkMultivariateStudentT {M}. Arguments MultivariateStudentT_mu {M}.
Arguments MultivariateStudentT_sigma {M}. Arguments MultivariateStudentT_nu {M}.
Arguments mkInverseWishart {M}. Arguments InverseWishart_nu {M}. Arguments InverseWishart_psi {M}.
Arguments mkNormalInverseWishart {M}. Arguments NormalInverseWishart_mu {M}. Arguments NormalInverseWishart_kappa {M}.
Arguments NormalInverseWishart_nu {M}. Arguments NormalInverseWishart_psi {M}.

(** The frozen scipy distributions the classes wrap *)
Inductive mv_dist M :=
| S_multivariate_normal (mean cov : M)
| S_multivariate_t (loc shape df : M)
| S_invwishart (df scale : M).
Arguments S_multivariate_normal {M}. Arguments S_multivariate_t {M}. Arguments S_invwishart {M}.

(** distributions.py:477-479 *)
Definition MultivariateNormal_dist {M} (d : MultivariateNormal M) : mv_dist M :=
  S_multivariate_normal (MultivariateNormal_mu d) (MultivariateNormal_cov d).
(** distributions.py:705-707 *)
Definition MultivariateStudentT_dist {M} (d : MultivariateStudentT M) : mv_dist M :=
  S_multivariate_t (MultivariateStudentT_mu d) (MultivariateStudentT_sigma d) (MultivariateStudentT_nu d).
(** distributions.py:1096-1098 *)
Definition InverseWishart_dist {M} (d : InverseWishart M) : mv_dist M :=
  S_invwishart (InverseWishart_nu d) (InverseWishart_psi d).
(** distributions.py:1222-1225 *)
Definition NormalInverseWishart_inverse_wishart {M} (d : NormalInverseWishart M) : InverseWishart M :=
  mkInverseWishart (NormalInverseWishart_nu d) (NormalInverseWishart_psi d).
(** distributions.py:1227-1234 *)
Definition NormalInverseWishart_from_inverse_wishart {M} (mu kappa : M) (iw : InverseWishart M)
  : NormalInverseWishart M :=
  mkNormalInverseWishart mu kappa (InverseWishart_nu iw) (InverseWishart_psi iw).

Section Models.
Context {A : Type} {NA : Num A}.
Local Notation NIG := (NormalInverseGamma (nd A) (nd A) (nd A)).
#[local] Existing Instance NumNd.

(** [inv(None)]: np.linalg.inv rejects an array that is not at least
    two-dimensional with LinAlgError. *)
Definition inv_arg (inv : nd A -> res (nd A)) (m : option (nd A)) : res (nd A) :=
  match m with Some m => inv m | None => Raise LinAlgError end.

(** models.py:1370-1421 *)
Definition linear_regression (X y : nd A) (prior : NIG) (inv : nd A -> res (nd A)) : res NIG :=
  let* N := shape0 X in
  let* delta := inv_arg inv (NormalInverseGamma_delta_inverse prior) in
  let* delta_post := (transpose (Ok X) @@ Ok X) + Ok delta in
  let* delta_post_inverse := inv delta_post in
  let* mu_post :=
    Ok delta_post_inverse @@ ((Ok delta @@ Ok (NormalInverseGamma_mu prior)) + (transpose (Ok X) @@ Ok y)) in
  let* alpha_post := Ok (NormalInverseGamma_alpha prior) + (nhalf * int N) in
  let* beta_post := Ok (NormalInverseGamma_beta prior) +
    (nhalf * (((transpose (Ok y) @@ Ok y)
               + (transpose (Ok (NormalInverseGamma_mu prior)) @@ Ok delta @@ Ok (NormalInverseGamma_mu prior)))
              - (transpose (Ok mu_post) @@ Ok delta_post @@ Ok mu_post))) in
  new_NormalInverseGamma mu_post alpha_post beta_post (Some delta_post_inverse) None.

(** [X @ None] *)
Definition operand (m : option (nd A)) : res (nd A) :=
  match m with
  | Some m => Ok m
  | None => Raise (TypeError "matmul: unsupported operand NoneType")
  end.

(** models.py:1424-1452 *)
Definition linear_regression_predictive (distribution : NIG) (X : nd A) (eye : nat -> res (nd A))
  : res (MultivariateStudentT (nd A)) :=
  let* mu := Ok X @@ Ok (NormalInverseGamma_mu distribution) in
  let* sigma :=
    (Ok (NormalInverseGamma_beta distribution) / Ok (NormalInverseGamma_alpha distribution))
    * ((let* N := shape0 X in eye N)
       + (Ok X @@ operand (NormalInverseGamma_delta_inverse distribution) @@ transpose (Ok X))) in
  let* nu := nlit 2 * Ok (NormalInverseGamma_alpha distribution) in
  Ok (mkMultivariateStudentT mu sigma nu).

(** models.py:1718-1731; [inv] is always the default np.linalg.inv: no caller passes one *)
Definition _multivariate_normal_known_precision (n x_bar_0 precision_0 x_bar precision : nd A)
  (inv : nd A -> res (nd A)) : res (nd A * nd A) :=
  let* mu_post :=
    (let* p := Ok precision_0 + (Ok n * Ok precision) in inv p)
    @@ ((Ok precision_0 @@ Ok x_bar_0) + (Ok n * (Ok precision @@ Ok x_bar))) in
  let* precision_post := Ok precision_0 + (Ok n * Ok precision) in
  Ok (mu_post, precision_post).

(** models.py:1734-1769; [np_inv] is np.linalg.inv, the default of the helper above *)
Definition multivariate_normal_known_covariance (np_inv : nd A -> res (nd A))
  (n x_bar cov : nd A) (prior : MultivariateNormal (nd A)) (inv : nd A -> res (nd A))
  : res (MultivariateNormal (nd A)) :=
  let mu_bar_0 := MultivariateNormal_mu prior in
  let* precision_0 := inv (MultivariateNormal_cov prior) in
  let* precision := inv cov in
  let* (mu_post, precision_post) :=
    _multivariate_normal_known_precision n mu_bar_0 precision_0 x_bar precision np_inv in
  let* cov_post := inv precision_post in
  Ok (mkMultivariateNormal mu_post cov_post).

(** models.py:1772-1790 *)
Definition multivariate_normal_known_covariance_predictive (distribution : MultivariateNormal (nd A))
  (cov : nd A) : res (MultivariateNormal (nd A)) :=
  let mu_pred := MultivariateNormal_mu distribution in
  let* cov_pred := Ok (MultivariateNormal_cov distribution) + Ok cov in
  Ok (mkMultivariateNormal mu_pred cov_pred).

(** models.py:1793-1826 *)
Definition multivariate_normal_known_precision (np_inv : nd A -> res (nd A))
  (n x_bar precision : nd A) (prior : MultivariateNormal (nd A)) (inv : nd A -> res (nd A))
  : res (MultivariateNormal (nd A)) :=
  let mu_0 := MultivariateNormal_mu prior in
  let* precision_0 := inv (MultivariateNormal_cov prior) in
  let* (mu_post, precision_post) :=
    _multivariate_normal_known_precision n mu_0 precision_0 x_bar precision np_inv in
  let* cov_post := inv precision_post in
  Ok (mkMultivariateNormal mu_post cov_post).

(** models.py:1829-1849 *)
Definition multivariate_normal_known_precision_predictive (distribution : MultivariateNormal (nd A))
  (precision : nd A) (inv : nd A -> res (nd A)) : res (MultivariateNormal (nd A)) :=
  let mu_pred := MultivariateNormal_mu distribution in
  let* cov_pred := Ok (MultivariateNormal_cov distribution) + inv precision in
  Ok (mkMultivariateNormal mu_pred cov_pred).

(** models.py:1852-1876 *)
Definition multivariate_normal_known_mean (X mu : nd A) (prior : InverseWishart (nd A))
  : res (InverseWishart (nd A)) :=
  let* nu_post := Ok (InverseWishart_nu prior) + (let* n := shape0 X in int n) in
  let* psi_post := Ok (InverseWishart_psi prior) + (transpose (Ok X - Ok mu) @@ (Ok X - Ok mu)) in
  Ok (mkInverseWishart nu_post psi_post).

(** models.py:1879-1960 *)
Definition multivariate_normal (X : nd A) (prior : NormalInverseWishart (nd A))
  (outer : nd A -> nd A -> res (nd A)) : res (NormalInverseWishart (nd A)) :=
  let* n := shape0 X in
  let* X_mean := mean0 X in
  let* C := transpose (Ok X - Ok X_mean) @@ (Ok X - Ok X_mean) in
  let mu := NormalInverseWishart_mu prior in
  let kappa := NormalInverseWishart_kappa prior in
  let* mu_post := ((Ok mu * Ok kappa) + (int n * Ok X_mean)) / (Ok kappa + int n) in
  let* kappa_post := Ok kappa + int n in
  let* nu_post := Ok (NormalInverseWishart_nu prior) + int n in
  let* mean_difference := Ok X_mean - Ok mu in
  let* psi_post :=
    (Ok (NormalInverseWishart_psi prior) + Ok C)
    + ((((outer mean_difference mean_difference) * int n) * Ok kappa) / Ok kappa_post) in
  Ok (mkNormalInverseWishart mu_post kappa_post nu_post psi_post).

(** models.py:1963-2065 *)
Definition multivariate_normal_predictive (distribution : NormalInverseWishart (nd A))
  : res (MultivariateStudentT (nd A)) :=
  let* p := shape0 (NormalInverseWishart_psi distribution) in
  let mu := NormalInverseWishart_mu distribution in
  let* nu := (Ok (NormalInverseWishart_nu distribution) - int p) + nlit 1 in
  let* sigma :=
    ((Ok (NormalInverseWishart_kappa distribution) + nlit 1) * Ok (NormalInverseWishart_psi distribution))
    / (Ok (NormalInverseWishart_kappa distribution)
       * ((Ok (NormalInverseWishart_nu distribution) - int p) + nlit 1)) in
  Ok (mkMultivariateStudentT mu sigma nu).

End Models.
