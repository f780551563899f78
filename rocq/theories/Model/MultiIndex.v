(** Indexing of MultivariateNormal and MultivariateStudentT: distributions.py:481-485, 709-716. *)

From Coq Require Import ZArith Bool List.
From Verif Require Import Model.Num Model.Py Model.Dists Model.NdArray Model.SliceModel.
Import ListNotations.

(** Keys as the method sees them: [isinstance(key, int)] holds for Python
    integers, not for numpy integers. *)
Inductive mkey := PyInt (k : Z) | NpInt (k : Z) | Many (k : key).

Section Multi.
Context {A : Type} {NA : Num A}.

(** [m[k1, k2]] with two integers on a 2-d array *)
Definition nd_getitem2 (m : nd A) (k1 k2 : Z) : res A :=
  match nd_shape m with
  | [d1; d2] => match position d1 k1, position d2 k2 with
                | Some i, Some j => Ok (nd_entry m [i; j])
                | _, _ => Raise IndexError end
  | _ => Raise IndexError
  end.
(** [m[:, k]]: needs two axes *)
Definition nd_getcol (m : nd A) (k : key) : res (nd A) :=
  match nd_shape m with
  | [d1; d2] => let* ps := select d2 k in
      Ok (mkNd [d1; length ps] (fun i => match i with
                                         | [r; c] => nd_entry m [r; nth c ps 0%nat]
                                         | _ => nd_entry m [] end))
  | _ => Raise IndexError
  end.
(** The number in an array of shape [] *)
Definition item (a : nd A) : A := nd_entry a [].

Inductive indexed := Univariate_normal (d : Normal A) | Univariate_t (d : StudentT A)
| Multi_normal (mu cov : nd A) | Multi_t (mu sigma : nd A) (nu : A).

(** distributions.py:481-485 MultivariateNormal.__getitem__ *)
Definition MultivariateNormal_getitem (mu cov : nd A) (k : mkey) : res indexed :=
  match k with
  | PyInt z =>
      let* m := nd_getitem mu (KInt z) in
      let* v := nd_getitem2 cov z z in
      Ok (Univariate_normal (mkNormal (item m) (nsqrt v)))
  | NpInt z =>
      let* m := nd_getitem mu (KInt z) in
      let* row := nd_getitem cov (KInt z) in
      let* c := nd_getcol row (KInt z) in
      Ok (Multi_normal m c)
  | Many k =>
      let* m := nd_getitem mu k in
      let* rows := nd_getitem cov k in
      let* c := nd_getcol rows k in
      Ok (Multi_normal m c)
  end.

(** distributions.py:709-716 MultivariateStudentT.__getitem__ (no square root) *)
Definition MultivariateStudentT_getitem (mu sigma : nd A) (nu : A) (k : mkey) : res indexed :=
  match k with
  | PyInt z =>
      let* m := nd_getitem mu (KInt z) in
      let* v := nd_getitem2 sigma z z in
      Ok (Univariate_t (mkStudentT (item m) v nu))
  | NpInt z =>
      let* m := nd_getitem mu (KInt z) in
      let* row := nd_getitem sigma (KInt z) in
      let* c := nd_getcol row (KInt z) in
      Ok (Multi_t m c nu)
  | Many k =>
      let* m := nd_getitem mu k in
      let* rows := nd_getitem sigma k in
      let* c := nd_getcol rows k in
      Ok (Multi_t m c nu)
  end.
End Multi.
Arguments indexed : clear implicits.
