(** Dirichlet models and the containers their parameters come in:
    models.py:430-561, distributions.py:144-202.

    A parameter is a number, a flat list or tuple of numbers, or an array.
    Python's [+] on these containers is modelled with its reflected form
    (list + array calls ndarray.__radd__).  Not modelled: nested lists, numpy
    scalars, dtypes. *)

From Coq Require Import ZArith Bool String List.
From Verif Require Import Model.Num Model.Py Model.NdArray.
Import ListNotations.

Inductive container (A : Type) :=
| CNum (a : A)
| CList (l : list A)
| CTuple (l : list A)
| CArr (a : nd A).
Arguments CNum {A}. Arguments CList {A}. Arguments CTuple {A}. Arguments CArr {A}.

(** What the function returns: a container, or a list whose elements are arrays. *)
Inductive outcome (A : Type) :=
| OVal (c : container A)
| ORows (l : list (nd A)).
Arguments OVal {A}. Arguments ORows {A}.

Section Dirichlet.
Context {A : Type} {NA : Num A}.

(** numpy.asarray of a flat sequence *)
Definition as_array (l : list A) : nd A :=
  mkNd [length l] (fun i => nth (nth 0 i 0%nat) l (nlit 0)).

(** The array operand of [+]; lists and tuples are converted *)
Definition to_array (c : container A) : nd A :=
  match c with CNum a => scalar a | CList l => as_array l | CTuple l => as_array l | CArr a => a end.

(** Python's [v + w] *)
Definition py_add (v w : container A) : res (container A) :=
  match v, w with
  | CArr _, _ | _, CArr _ => rmap CArr (map2 nadd (to_array v) (to_array w))
  | CNum a, CNum b => Ok (CNum (nadd a b))
  | CList a, CList b => Ok (CList (a ++ b))
  | CTuple a, CTuple b => Ok (CTuple (a ++ b))
  | _, _ => Raise (TypeError "unsupported operand type(s) for +")
  end.

(** [iter(v)]: the elements, each a number (shape []) or a row of an array *)
Definition elements (c : container A) : res (list (nd A)) :=
  match c with
  | CNum _ => Raise (TypeError "object is not iterable")
  | CList l | CTuple l => Ok (map scalar l)
  | CArr a => match nd_shape a with
              | [] => Raise (TypeError "iteration over a 0-d array")
              | d :: s => Ok (map (fun k => mkNd s (fun i => nd_entry a (k :: i))) (seq 0 d))
              end
  end.

(** A list of numbers is a list; otherwise it holds arrays. *)
Definition as_outcome (l : list (nd A)) : outcome A :=
  if forallb (fun a => match nd_shape a with [] => true | _ => false end) l
  then OVal (CList (map (fun a => nd_entry a []) l)) else ORows l.

(** models.py:430-434 get_dirichlet_posterior_params *)
Definition get_dirichlet_posterior_params (alpha_prior x : container A) : res (outcome A) :=
  match py_add alpha_prior x with
  | Ok v => Ok (OVal v)
  | Raise _ =>
      let* la := elements alpha_prior in
      let* lx := elements x in
      let* l := sequence (map (fun p => map2 nadd (fst p) (snd p)) (combine la lx)) in
      Ok (as_outcome l)
  end.

(** models.py:437-442, 482-487: the two public names of it *)
Definition get_categorical_dirichlet_posterior_params := get_dirichlet_posterior_params.
Definition get_multi_categorical_dirichlet_posterior_params := get_dirichlet_posterior_params.

(** distributions.py:143-153: the dataclass, its field as built by the models *)
Record Dirichlet := mkDirichlet { Dirichlet_alpha : outcome A }.
Record DirichletMultinomial := mkDirichletMultinomial { DirichletMultinomial_alpha : outcome A; DirichletMultinomial_n : A }.

(** models.py:446-459 categorical_dirichlet and 491-541 multinomial_dirichlet,
    on a prior whose alpha is a container *)
Definition categorical_dirichlet (x alpha : container A) : res Dirichlet :=
  rmap mkDirichlet (get_dirichlet_posterior_params alpha x).
Definition multinomial_dirichlet (x alpha : container A) : res Dirichlet :=
  rmap mkDirichlet (get_dirichlet_posterior_params alpha x).

(** models.py:463-479, 545-561; n defaults to 1 *)
Definition categorical_dirichlet_predictive (n : option A) (d : Dirichlet) : DirichletMultinomial :=
  mkDirichletMultinomial (Dirichlet_alpha d) (match n with Some n => n | None => nlit 1 end).
Definition multinomial_dirichlet_predictive := categorical_dirichlet_predictive.

(** distributions.py:161-166 Dirichlet.dist: one scipy distribution for a 1-d
    alpha, otherwise one for each row; numbers, lists and tuples have no [ndim] *)
Inductive dirichlet_dist := One (alpha : nd A) | Vectorized (alpha : nd A).
Definition Dirichlet_dist (d : Dirichlet) : res dirichlet_dist :=
  match Dirichlet_alpha d with
  | OVal (CArr a) => if Nat.eqb (length (nd_shape a)) 1 then Ok (One a) else Ok (Vectorized a)
  | OVal (CNum _) => Raise (AttributeError "'float' object has no attribute 'ndim'")
  | OVal (CTuple _) => Raise (AttributeError "'tuple' object has no attribute 'ndim'")
  | OVal (CList _) | ORows _ => Raise (AttributeError "'list' object has no attribute 'ndim'")
  end.

(** distributions.py:157-159 Dirichlet.uninformative *)
Definition Dirichlet_uninformative (n : nat) : Dirichlet :=
  mkDirichlet (OVal (CArr (mkNd [n] (fun _ => nlit 1)))).
End Dirichlet.
Arguments Dirichlet : clear implicits.
Arguments DirichletMultinomial : clear implicits.
Arguments dirichlet_dist : clear implicits.
