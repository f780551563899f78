(** The library's own density code, run with Python's numbers (Model/PyNum.v);
    scipy.special.beta is trusted to be the beta function. *)

From Coq Require Import Reals.
From Verif Require Import Model.Num Model.Py Model.ScipyDist Model.PyNum Spec.Special.
Open Scope R_scope.

Definition own_compound_gamma_pdf (x a b q : R) : res R :=
  compound_gamma_pdf (NA := NumPy) (py2 (fun a b => Ok (Beta_fun a b))) (Ok x) (Ok a) (Ok b) (Ok q).
