(** What the type validation of a model function is supposed to do. *)

From Coq Require Import String List Arith.
From Verif Require Import Model.Py Model.Validate.
Import ListNotations.
Open Scope string_scope.

(** The classes an annotation admits. *)
Definition admitted (a : annotation) : list cls := match a with Single c => [c] | Union cs => cs end.

(** The classes of an object: its type and the superclasses of its type. *)
Definition classes {V} (o : obj V) : list cls :=
  match o with ONone => [cNoneType] | OInst c supers _ => c :: supers end.

(** Some class of the object is (by identity) one the annotation admits. *)
Definition well_typed {V} (o : obj V) (a : annotation) : Prop :=
  exists c d, In c (classes o) /\ In d (admitted a) /\ cls_id c = cls_id d.

(** The value of keyword [k], or None when it is absent. *)
Inductive passed {V} (k : string) : kwargs V -> obj V -> Prop :=
| passed_absent : passed k [] ONone
| passed_here o kw : passed k ((k, o) :: kw) o
| passed_later k' o' kw o : k' <> k -> passed k kw o -> passed k ((k', o') :: kw) o.

(** The arguments match the parameter list: no positional argument, no unknown
    keyword, no required parameter missing. *)
Definition arguments_match {V} (params : list (string * bool)) (args : list (obj V)) (kw : kwargs V) : Prop :=
  args = [] /\
  (forall k o, In (k, o) kw -> exists b, In (k, b) params) /\
  (forall p, In (p, true) params -> exists o, In (p, o) kw).

(** The message of the ValueError. *)
Definition wrong_type_message (parameter expected received : string) : string :=
  "Expected " ++ parameter ++ " to be of type '" ++ expected ++ "', got '" ++ received ++ "' instead.".

Definition type_name {V} (o : obj V) : string :=
  match o with ONone => "NoneType" | OInst c _ _ => cls_name c end.

(** The names of the distribution classes, in the order of distributions.py:66-1311. *)
Definition class_names : list string :=
  ["Beta"; "Binomial"; "Dirichlet"; "Multinomial"; "DirichletMultinomial"; "Exponential"; "Gamma"; "NegativeBinomial";
   "Hypergeometric"; "Poisson"; "BetaBinomial"; "BetaNegativeBinomial"; "Geometric"; "BetaGeometric"; "Normal";
   "MultivariateNormal"; "Uniform"; "Pareto"; "InverseGamma"; "NormalInverseGamma"; "StudentT"; "MultivariateStudentT";
   "Lomax"; "CompoundGamma"; "GammaKnownRateProportional"; "GammaProportional"; "BetaProportional"; "VonMises";
   "VonMisesKnownConcentration"; "VonMisesKnownDirectionProportional"; "ScaledInverseChiSquared"; "NormalGamma";
   "InverseWishart"; "Wishart"; "NormalWishart"; "NormalInverseWishart"; "LogNormal"; "Weibull"].
