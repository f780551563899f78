(** What [@dataclass] gives every class of distributions.py: the constructor and [==].

    distributions.py:38 (the import) and the decorator before each class: the defaults of
    [dataclass], so there is an [__init__] and an [__eq__], no order, and no hash.  The
    [__eq__] is that of Python 3.10 to 3.12, which compares the tuples of the fields.  The
    bounds that some [__post_init__] set are not fields; they are in Model/PlotModel.v. *)

From Coq Require Import ZArith Bool String Reals.
From Verif Require Import Model.Num Model.Py Model.Table Model.NdArray Model.SliceModel Model.PlotModel.
From Coq Require Import List.
Import ListNotations.
Open Scope string_scope.
Open Scope list_scope.

(** The value of a field: None, or a parameter and its address.  Numbers are arrays of
    shape []; the address matters for arrays. *)
Inductive value := VNone | VParam (address : nat) (p : param R).

(** A field: its name and its default *)
Notation field := (string * option value)%type.
(** The fields in the order of distributions.py *)
Definition dataclasses : list (string * list field) := [
  ("Beta", [("alpha", None); ("beta", None)]); (* 75-76 *)
  ("Binomial", [("n", None); ("p", None)]); (* 115-116 *)
  ("Dirichlet", [("alpha", None)]); (* 152-152 *)
  ("Multinomial", [("n", None); ("p", None)]); (* 179-180 *)
  ("DirichletMultinomial", [("alpha", None); ("n", None)]); (* 197-198 *)
  ("Exponential", [("lam", None)]); (* 214-214 *)
  ("Gamma", [("alpha", None); ("beta", None)]); (* 238-239 *)
  ("NegativeBinomial", [("n", None); ("p", None)]); (* 265-266 *)
  ("Hypergeometric", [("N", None); ("k", None); ("n", None)]); (* 289-291 *)
  ("Poisson", [("lam", None)]); (* 313-313 *)
  ("BetaBinomial", [("n", None); ("alpha", None); ("beta", None)]); (* 341-343 *)
  ("BetaNegativeBinomial", [("n", None); ("alpha", None); ("beta", None)]); (* 367-369 *)
  ("Geometric", [("p", None); ("one_start", Some (VParam 0 (PFlag true)))]); (* 396-397 *)
  ("BetaGeometric", [("alpha", None); ("beta", None); ("one_start", Some (VParam 0 (PFlag true)))]); (* 416-418 *)
  ("Normal", [("mu", None); ("sigma", None)]); (* 435-436 *)
  ("MultivariateNormal", [("mu", None); ("cov", None)]); (* 474-475 *)
  ("Uniform", [("low", None); ("high", None)]); (* 498-499 *)
  ("Pareto", [("x_m", None); ("alpha", None)]); (* 520-521 *)
  ("InverseGamma", [("alpha", None); ("beta", None)]); (* 538-539 *)
  ("NormalInverseGamma", [("mu", None); ("alpha", None); ("beta", None); ("delta_inverse", Some VNone); ("nu", Some VNone)]); (* 561-565 *)
  ("StudentT", [("mu", None); ("sigma", None); ("nu", None)]); (* 681-683 *)
  ("MultivariateStudentT", [("mu", None); ("sigma", None); ("nu", None)]); (* 701-703 *)
  ("Lomax", [("alpha", None); ("lam", None)]); (* 728-729 *)
  ("CompoundGamma", [("alpha", None); ("beta", None); ("lam", None)]); (* 747-749 *)
  ("GammaKnownRateProportional", [("a", None); ("b", None); ("c", None)]); (* 767-769 *)
  ("GammaProportional", [("p", None); ("q", None); ("r", None); ("s", None)]); (* 805-808 *)
  ("BetaProportional", [("p", None); ("q", None); ("k", None)]); (* 844-846 *)
  ("VonMises", [("mu", None); ("kappa", None)]); (* 882-883 *)
  ("VonMisesKnownConcentration", [("a", None); ("b", None)]); (* 906-907 *)
  ("VonMisesKnownDirectionProportional", [("c", None); ("r", None)]); (* 936-937 *)
  ("ScaledInverseChiSquared", [("nu", None); ("sigma2", None)]); (* 964-965 *)
  ("NormalGamma", [("mu", None); ("lam", None); ("alpha", None); ("beta", None)]); (* 1012-1015 *)
  ("InverseWishart", [("nu", None); ("psi", None)]); (* 1093-1094 *)
  ("Wishart", [("nu", None); ("V", None)]); (* 1111-1112 *)
  ("NormalWishart", [("mu", None); ("lam", None); ("W", None); ("nu", None)]); (* 1133-1136 *)
  ("NormalInverseWishart", [("mu", None); ("kappa", None); ("nu", None); ("psi", None)]); (* 1217-1220 *)
  ("LogNormal", [("mu", None); ("sigma", None)]); (* 1302-1303 *)
  ("Weibull", [("beta", None); ("theta", None)]) (* 1349-1350 *)
].

Record dobj := mkDobj { d_class : string; d_values : list (string * value) }.

(** ** The constructor *)
Definition keyword (name : string) (kw : list (string * value)) : option value :=
  option_map snd (find (fun p => String.eqb (fst p) name) kw).
(** The generated [__init__]: positional arguments first, then keywords, then defaults. *)
Fixpoint fill (fields : list field) (args : list value) (kw : list (string * value)) : res (list (string * value)) :=
  match fields, args with
  | [], [] => Ok []
  | [], _ :: _ => Raise (TypeError "takes fewer positional arguments")
  | (name, _) :: fields, a :: args =>
      match keyword name kw with
      | Some _ => Raise (TypeError "got multiple values for argument")
      | None => let* rest := fill fields args kw in Ok ((name, a) :: rest)
      end
  | (name, default) :: fields, [] =>
      match keyword name kw, default with
      | Some v, _ | None, Some v => let* rest := fill fields [] kw in Ok ((name, v) :: rest)
      | None, None => Raise (TypeError "missing a required argument")
      end
  end.
Definition init (fields : list field) (args : list value) (kw : list (string * value)) : res (list (string * value)) :=
  if forallb (fun p => existsb (fun f => String.eqb (fst f) (fst p)) fields) kw then fill fields args kw
  else Raise (TypeError "got an unexpected keyword argument").

Definition is_none (v : option value) : bool := match v with Some (VParam _ _) => false | _ => true end.
(** distributions.py:567-573 NormalInverseGamma.__post_init__ *)
Definition post_init (c : string) (values : list (string * value)) : res dobj :=
  if String.eqb c "NormalInverseGamma" then
    let delta_inverse := keyword "delta_inverse" values in
    let nu := keyword "nu" values in
    if is_none delta_inverse && is_none nu then Raise (ValueError "Either delta_inverse or nu must be provided.")
    else if negb (is_none delta_inverse) && negb (is_none nu) then Raise (ValueError "Only one of delta_inverse or nu must be provided.")
    else Ok (mkDobj c values)
  else Ok (mkDobj c values).
(** calling the class [c] with positional arguments [args] and keywords [kw] *)
Definition instantiate (c : string) (args : list value) (kw : list (string * value)) : res dobj :=
  match find (fun p => String.eqb (fst p) c) dataclasses with
  | Some (_, fields) => let* values := init fields args kw in post_init c values
  | None => Raise (AttributeError c)
  end.

(** ** Equality *)
Definition eqR (x y : R) : bool := if Req_EM_T x y then true else false.
Definition flag_number (b : bool) : R := if b then 1%R else 0%R.
Definition eq_list (l m : list R) : bool := Nat.eqb (length l) (length m) && forallb (fun p => eqR (fst p) (snd p)) (combine l m).

(** [bool(array)] of an array of booleans: numpy 2.0.0; later versions also refuse an
    empty array *)
Definition truth (shape : list nat) (entry : list nat -> bool) : res bool :=
  match indices shape with
  | [] => Ok false
  | [i] => Ok (entry i)
  | _ => Raise (ValueError "The truth value of an array with more than one element is ambiguous. Use a.any() or a.all()")
  end.
(** [bool(a == b)] of arrays; of numbers if both shapes are [] *)
Definition eq_arrays (a b : nd R) : res bool :=
  match broadcast_shapes (nd_shape a) (nd_shape b) with
  | Some s => truth s (fun i => eqR (at_index i a) (at_index i b))
  | None => Raise (ValueError "operands could not be broadcast together")
  end.
Definition list_array (l : list R) : nd R := mkNd [length l] (fun i => nth (hd 0%nat i) l 0%R).
Definition eq_params (p q : param R) : res bool :=
  match p, q with
  | PFlag b, PFlag c => Ok (Bool.eqb b c)
  | PList l, PList m => Ok (eq_list l m)
  | PArr a, PArr b => eq_arrays a b
  | PFlag b, PArr a | PArr a, PFlag b => eq_arrays (scalar (flag_number b)) a
  | PFlag _, PList _ | PList _, PFlag _ => Ok false
  | PList l, PArr a | PArr a, PList l => match nd_shape a with [] => Ok false | _ => eq_arrays (list_array l) a end
  end.
(** None is equal to None only; an array compares with it element by element. *)
Definition eq_none (p : param R) : res bool :=
  match p with PArr a => truth (nd_shape a) (fun _ => false) | _ => Ok false end.
(** [PyObject_RichCompareBool(v, w, Py_EQ)]: identity first *)
Definition eq_value (v w : value) : res bool :=
  match v, w with
  | VNone, VNone => Ok true
  | VNone, VParam _ p | VParam _ p, VNone => eq_none p
  | VParam i p, VParam j q => if Nat.eqb i j then Ok true else eq_params p q
  end.
(** Comparison of tuples of the same length: the first difference decides. *)
Fixpoint eq_tuple (l m : list value) : res bool :=
  match l, m with
  | v :: l, w :: m => let* b := eq_value v w in if b then eq_tuple l m else Ok false
  | [], [] => Ok true
  | _, _ => Ok false
  end.
(** [o == o'].  Instances of different classes: both methods return NotImplemented, and the
    objects are not identical. *)
Definition eq_objects (o o' : dobj) : res bool :=
  if String.eqb (d_class o) (d_class o') then eq_tuple (map snd (d_values o)) (map snd (d_values o')) else Ok false.

(** slice.py:7-20: [o[key]]; [fresh] gives the addresses of the new values, as [asdict]
    copies arrays and lists *)
Definition index_value (address : nat) (k : key) (v : value) : value :=
  match v with VNone => VNone | VParam _ p => VParam address (take_slice 0%R p k) end.
Definition index_object (fresh : nat) (k : key) (o : dobj) : dobj :=
  mkDobj (d_class o)
    (map (fun p => (fst (snd p), index_value (fresh + fst p) k (snd (snd p)))) (combine (seq 0 (length (d_values o))) (d_values o))).
