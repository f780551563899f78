(** What the constructors and [==] should do. *)

From Coq Require Import ZArith Bool String Reals.
From Verif Require Import Model.Num Model.Py Model.Table Model.NdArray Model.SliceModel Model.Dataclass.
From Coq Require Import List.
Import ListNotations.
Open Scope string_scope.
Open Scope list_scope.

(** The arguments of each class in the order of the section "Args" of its docstring in
    distributions.py (the lines of the docstring) *)
Definition documented : list (string * list string) := [
  ("Beta", ["alpha"; "beta"]); (* 67-73 *)
  ("Binomial", ["n"; "p"]); (* 107-113 *)
  ("Dirichlet", ["alpha"]); (* 145-150 *)
  ("Multinomial", ["n"; "p"]); (* 171-177 *)
  ("DirichletMultinomial", ["alpha"; "n"]); (* 189-195 *)
  ("Exponential", ["lam"]); (* 207-212 *)
  ("Gamma", ["alpha"; "beta"]); (* 228-236 *)
  ("NegativeBinomial", ["n"; "p"]); (* 257-263 *)
  ("Hypergeometric", ["N"; "k"; "n"]); (* 280-287 *)
  ("Poisson", ["lam"]); (* 306-311 *)
  ("BetaBinomial", ["n"; "alpha"; "beta"]); (* 332-339 *)
  ("BetaNegativeBinomial", ["n"; "alpha"; "beta"]); (* 358-365 *)
  ("Geometric", ["p"; "one_start"]); (* 388-394 *)
  ("BetaGeometric", ["alpha"; "beta"; "one_start"]); (* 407-414 *)
  ("Normal", ["mu"; "sigma"]); (* 427-433 *)
  ("MultivariateNormal", ["mu"; "cov"]); (* 466-472 *)
  ("Uniform", ["low"; "high"]); (* 490-496 *)
  ("Pareto", ["x_m"; "alpha"]); (* 512-518 *)
  ("InverseGamma", ["alpha"; "beta"]); (* 530-536 *)
  ("NormalInverseGamma", ["mu"; "alpha"; "beta"; "delta_inverse"; "nu"]); (* 548-559 *)
  ("StudentT", ["mu"; "sigma"; "nu"]); (* 672-679 *)
  ("MultivariateStudentT", ["mu"; "sigma"; "nu"]); (* 692-699 *)
  ("Lomax", ["alpha"; "lam"]); (* 720-726 *)
  ("CompoundGamma", ["alpha"; "beta"; "lam"]); (* 738-745 *)
  ("GammaKnownRateProportional", ["a"; "b"; "c"]); (* 758-765 *)
  ("GammaProportional", ["p"; "q"; "r"; "s"]); (* 795-803 *)
  ("BetaProportional", ["p"; "q"; "k"]); (* 835-842 *)
  ("VonMises", ["mu"; "kappa"]); (* 874-880 *)
  ("VonMisesKnownConcentration", ["a"; "b"]); (* 896-904 *)
  ("VonMisesKnownDirectionProportional", ["c"; "r"]); (* 927-934 *)
  ("ScaledInverseChiSquared", ["nu"; "sigma2"]); (* 956-962 *)
  ("NormalGamma", ["mu"; "lam"; "alpha"; "beta"]); (* 1002-1010 *)
  ("InverseWishart", ["nu"; "psi"]); (* 1085-1091 *)
  ("Wishart", ["nu"; "V"]); (* 1103-1109 *)
  ("NormalWishart", ["mu"; "lam"; "W"; "nu"]); (* 1121-1131 *)
  ("NormalInverseWishart", ["mu"; "kappa"; "nu"; "psi"]); (* 1207-1215 *)
  ("LogNormal", ["mu"; "sigma"]); (* 1294-1300 *)
  ("Weibull", ["beta"; "theta"]) (* 1312-1347 *)
].

(** The arguments that may be left out, with what they are then: "one_start: ... defaults to
    True" (388-394, 407-414), "delta_inverse" and "nu" are alternatives (548-559) *)
Definition optional (address : nat) : list (string * string * value) := [
  ("Geometric", "one_start", VParam address (PFlag true));
  ("BetaGeometric", "one_start", VParam address (PFlag true));
  ("NormalInverseGamma", "delta_inverse", VNone);
  ("NormalInverseGamma", "nu", VNone)
].

(** [name] is the keyword argument [v] *)
Definition by_keyword (kw : list (string * value)) (name : string) (v : value) : Prop := In (name, v) kw.
(** Field number [j], [name] with default [d], gets [v]: the positional argument number [j],
    or else the keyword argument of its name, or else the default *)
Definition receives (args : list value) (kw : list (string * value)) (j : nat) (name : string) (d : option value) (v : value) : Prop :=
  (nth_error args j = Some v) \/
  (nth_error args j = None /\ by_keyword kw name v) \/
  (nth_error args j = None /\ (forall w, ~ by_keyword kw name w) /\ d = Some v).
(** The call is well formed: no argument too many, unknown, given twice or missing *)
Definition well_formed (fields : list field) (args : list value) (kw : list (string * value)) : Prop :=
  (length args <= length fields)%nat /\
  (forall k v, In (k, v) kw -> exists j d, nth_error fields j = Some (k, d) /\ (length args <= j)%nat) /\
  (forall j name, nth_error fields j = Some (name, None) -> (j < length args)%nat \/ exists v, In (name, v) kw).

(** Exactly one of delta_inverse and nu is given *)
Definition one_precision (c : string) (values : list (string * value)) : Prop :=
  c = "NormalInverseGamma" ->
  (In ("delta_inverse", VNone) values /\ exists i p, In ("nu", VParam i p) values) \/
  (In ("nu", VNone) values /\ exists i p, In ("delta_inverse", VParam i p) values).

(** ** Equality *)
(** one address, one value *)
Definition coherent (o o' : dobj) : Prop :=
  forall i p q, In (VParam i p) (map snd (d_values o ++ d_values o')) -> In (VParam i q) (map snd (d_values o ++ d_values o')) -> p = q.
(** a Python number, flag, list of numbers or None *)
Inductive plain := Number (r : R) | Boolean (b : bool) | Nothing | Several (l : list R).
Definition is_plain (v : value) (x : plain) : Prop :=
  match x with
  | Number r => exists i, v = VParam i (PArr (scalar r))
  | Boolean b => exists i, v = VParam i (PFlag b)
  | Nothing => v = VNone
  | Several l => exists i, v = VParam i (PList l)
  end.
(** True is 1 and False is 0 *)
Definition same_plain (x y : plain) : Prop :=
  match x, y with
  | Boolean b, Number r | Number r, Boolean b => r = if b then 1%R else 0%R
  | _, _ => x = y
  end.
(** a number, or a vector of length [n] *)
Definition number_or_vector (n : nat) (v : value) : Prop :=
  exists i, (exists r, v = VParam i (PArr (scalar r))) \/ (exists f, v = VParam i (PArr (mkNd [n] f))).
Definition component (k : nat) (v : value) : R :=
  match v with
  | VParam _ (PArr a) => match nd_shape a with [] => nd_entry a [] | _ => nd_entry a [k] end
  | _ => 0%R
  end.
