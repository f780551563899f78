(** docs/examples/bayesian-update.md: updating batch by batch. *)

From Coq Require Import ZArith String Reals.
From Verif Require Import Model.Num Model.Py Model.Dists Model.Models Model.Table Model.Validate Model.ByName.
From Coq Require Import List.
Import ListNotations.
Open Scope string_scope.
Open Scope list_scope.

Section Loop.
Context {A : Type} {NA : Num A} (U : Ufuncs A).
Definition py_number (a : A) : obj (pyval A) := OInst cfloat [] (VNum a).

(** bayesian-update.md:12-18, with the labels of lines 68-69 and 126-127: a batch is its size and
    the keywords of the data; the loop returns what it labels, in order.  [cumsum] is the
    variable of lines 53 and 115. *)
Fixpoint update_loop (model : string) (cumsum : nat) (batches : list (nat * kwargs (pyval A))) (prior : obj (pyval A))
  : res (list (nat * obj (pyval A))) :=
  match batches with
  | [] => Ok []
  | (batch_size, data) :: batches =>
      let* posterior := snd (python_call U model [] (data ++ [("prior", prior)])) in
      let cumsum := (cumsum + batch_size)%nat in
      let prior := posterior in
      let* later := update_loop model cumsum batches prior in
      Ok ((cumsum, posterior) :: later)
  end.
End Loop.

(** bayesian-update.md:57-64 *)
Definition normal_batch (data : list R) : nat * kwargs (pyval R) :=
  (length data,
   [("x_total", py_number (fold_right Rplus 0%R data)); ("x2_total", py_number (fold_right Rplus 0%R (map (fun x => x ^ 2)%R data)));
    ("n", py_number (INR (length data)))]).
(** bayesian-update.md:47-51 *)
Definition normal_prior : obj (pyval R) :=
  instance cNormalInverseGamma
    [("mu", ANum 0%R); ("alpha", ANum 1%R); ("beta", ANum 1%R); ("delta_inverse", ANone); ("nu", ANum 1%R)].
Definition update_normal (U : Ufuncs R) (batches : list (list R)) : res (list (nat * obj (pyval R))) :=
  update_loop U "normal" 0 (map normal_batch batches) normal_prior.

(** bayesian-update.md:118-124; [x] successes in a batch of [n] *)
Definition binomial_batch (b : nat * R) : nat * kwargs (pyval R) :=
  (fst b, [("x", py_number (snd b)); ("n", py_number (INR (fst b)))]).
(** bayesian-update.md:108 *)
Definition binomial_prior : obj (pyval R) :=
  instance cBeta [("alpha", ANum 1%R); ("beta", ANum 1%R)].
Definition update_binomial (U : Ufuncs R) (batches : list (nat * R)) : res (list (nat * obj (pyval R))) :=
  update_loop U "binomial_beta" 0 (map binomial_batch batches) binomial_prior.
