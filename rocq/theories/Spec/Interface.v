(** The public interface of the element-wise functions, as the documentation has
    it: keyword arguments, class and attributes of the prior, class and attributes
    of the result. *)

From Coq Require Import ZArith String List Bool Permutation.
From Verif Require Import Model.Num Model.Py Model.Table Model.Validate Model.ByName.
Import ListNotations.
Open Scope string_scope.
Open Scope list_scope.

(** A number the function needs: an argument, or an attribute of the prior *)
Inductive slot := Arg (name : string) | Attr (name : string).
(** An attribute that is not a number *)
Inductive constant := IsBool (b : bool) | IsNone.
Definition constant_attr {A} (c : constant) : attr A := match c with IsBool b => ABool b | IsNone => ANone end.

Record interface := mkInterface
  { i_name : string;
    i_fn : fn;                               (* what is computed (Model/Table.v) ... *)
    i_slots : list slot;                     (* ... from these numbers *)
    i_parameter : string;                    (* prior or distribution *)
    i_class : cls;                           (* its class *)
    i_not : list cls;                        (* the other class the function accepts *)
    i_fixed : list (string * constant);      (* attributes of the prior that are not numbers *)
    i_result : option cls;                   (* the class of the result; None: that of the prior *)
    i_attrs : list string;                   (* its numbers *)
    i_result_fixed : list (string * constant) }.

Definition simple name f slots parameter c r attrs := mkInterface name f slots parameter c [] [] (Some r) attrs [].
Definition args := map Arg.
Definition attrs := map Attr.
Definition posterior name f numbers c fields :=
  simple name f (args numbers ++ attrs fields) "prior" c c fields.
Definition predictive name f numbers c fields r r_fields :=
  simple name f (args numbers ++ attrs fields) "distribution" c r r_fields.

Definition ab := ["alpha"; "beta"].
Definition delta_none := [("delta_inverse", IsNone)].
Definition nig_attrs := ["mu"; "alpha"; "beta"; "nu"].
Definition ng_attrs := ["mu"; "lam"; "alpha"; "beta"].
Definition normal_row name f numbers c other fields fixed :=
  mkInterface name f (args numbers ++ attrs fields) "prior" c [other] fixed None fields fixed.

Definition interfaces : list interface :=
[ posterior "binomial_beta" F_binomial_beta ["n"; "x"] cBeta ab;
  predictive "binomial_beta_predictive" F_binomial_beta_predictive ["n"] cBeta ab cBetaBinomial ["n"; "alpha"; "beta"];
  posterior "bernoulli_beta" F_bernoulli_beta ["x"] cBeta ab;
  predictive "bernoulli_beta_predictive" F_bernoulli_beta_predictive [] cBeta ab cBetaBinomial ["n"; "alpha"; "beta"];
  posterior "negative_binomial_beta" F_negative_binomial_beta ["r"; "n"; "x"] cBeta ab;
  predictive "negative_binomial_beta_predictive" F_negative_binomial_beta_predictive ["r"] cBeta ab
    cBetaNegativeBinomial ["n"; "alpha"; "beta"];
  posterior "hypergeometric_beta_binomial" F_hypergeometric_beta_binomial ["x_total"; "n"] cBetaBinomial ["n"; "alpha"; "beta"];
  posterior "geometric_beta" (F_geometric_beta true) ["x_total"; "n"] cBeta ab;
  posterior "geometric_beta" (F_geometric_beta false) ["x_total"; "n"] cBeta ab;
  mkInterface "geometric_beta_predictive" (F_geometric_beta_predictive true) (attrs ab) "distribution" cBeta [] []
    (Some cBetaGeometric) ab [("one_start", IsBool true)];
  mkInterface "geometric_beta_predictive" (F_geometric_beta_predictive false) (attrs ab) "distribution" cBeta [] []
    (Some cBetaGeometric) ab [("one_start", IsBool false)];
  posterior "poisson_gamma" F_poisson_gamma ["x_total"; "n"] cGamma ab;
  simple "poisson_gamma_predictive" F_poisson_gamma_predictive (attrs ab ++ args ["n"]) "distribution" cGamma
    cNegativeBinomial ["n"; "p"];
  posterior "exponential_gamma" F_exponential_gamma ["x_total"; "n"] cGamma ab;
  predictive "exponential_gamma_predictive" F_exponential_gamma_predictive [] cGamma ab cLomax ["alpha"; "lam"];
  posterior "gamma_known_shape" F_gamma_known_shape ["x_total"; "n"; "alpha"] cGamma ab;
  simple "gamma_known_shape_predictive" F_gamma_known_shape_predictive (attrs ab ++ args ["alpha"]) "distribution" cGamma
    cCompoundGamma ["alpha"; "beta"; "lam"];
  posterior "inverse_gamma_known_rate" F_inverse_gamma_known_rate ["reciprocal_x_total"; "n"; "alpha"] cGamma ab;
  posterior "normal_known_variance" F_normal_known_variance ["x_total"; "n"; "var"] cNormal ["mu"; "sigma"];
  predictive "normal_known_variance_predictive" F_normal_known_variance_predictive ["var"] cNormal ["mu"; "sigma"]
    cNormal ["mu"; "sigma"];
  posterior "normal_known_precision" F_normal_known_precision ["x_total"; "n"; "precision"] cNormal ["mu"; "sigma"];
  predictive "normal_known_precision_predictive" F_normal_known_precision_predictive ["precision"] cNormal ["mu"; "sigma"]
    cNormal ["mu"; "sigma"];
  mkInterface "normal_known_mean" F_normal_known_mean_ig (args ["x_total"; "x2_total"; "n"; "mu"] ++ attrs ab) "prior"
    cInverseGamma [cScaledInverseChiSquared] [] (Some cInverseGamma) ab [];
  mkInterface "normal_known_mean" F_normal_known_mean_sics (args ["x_total"; "x2_total"; "n"; "mu"] ++ attrs ["nu"; "sigma2"]) "prior"
    cScaledInverseChiSquared [cInverseGamma] [] (Some cScaledInverseChiSquared) ["nu"; "sigma2"] [];
  mkInterface "normal_known_mean_predictive" F_normal_known_mean_predictive_ig (args ["mu"] ++ attrs ab) "distribution"
    cInverseGamma [cScaledInverseChiSquared] [] (Some cStudentT) ["mu"; "sigma"; "nu"] [];
  mkInterface "normal_known_mean_predictive" F_normal_known_mean_predictive_sics (args ["mu"] ++ attrs ["nu"; "sigma2"]) "distribution"
    cScaledInverseChiSquared [cInverseGamma] [] (Some cStudentT) ["mu"; "sigma"; "nu"] [];
  normal_row "normal" F_normal_nig ["x_total"; "x2_total"; "n"] cNormalInverseGamma cNormalGamma nig_attrs delta_none;
  normal_row "normal" F_normal_ng ["x_total"; "x2_total"; "n"] cNormalGamma cNormalInverseGamma ng_attrs [];
  normal_row "normal_normal_inverse_gamma" F_normal_nig ["x_total"; "x2_total"; "n"] cNormalInverseGamma cNormalGamma nig_attrs delta_none;
  normal_row "log_normal" F_log_normal_nig ["ln_x_total"; "ln_x2_total"; "n"] cNormalInverseGamma cNormalGamma nig_attrs delta_none;
  normal_row "log_normal" F_log_normal_ng ["ln_x_total"; "ln_x2_total"; "n"] cNormalGamma cNormalInverseGamma ng_attrs [];
  mkInterface "normal_predictive" F_normal_predictive_nig (attrs nig_attrs) "distribution"
    cNormalInverseGamma [cNormalGamma] delta_none (Some cStudentT) ["mu"; "sigma"; "nu"] [];
  mkInterface "normal_predictive" F_normal_predictive_ng (attrs ng_attrs) "distribution"
    cNormalGamma [cNormalInverseGamma] [] (Some cStudentT) ["mu"; "sigma"; "nu"] [];
  mkInterface "normal_normal_inverse_gamma_predictive" F_normal_predictive_nig (attrs nig_attrs) "distribution"
    cNormalInverseGamma [cNormalGamma] delta_none (Some cStudentT) ["mu"; "sigma"; "nu"] [];
  posterior "uniform_pareto" F_uniform_pareto ["x_max"; "n"] cPareto ["x_m"; "alpha"];
  posterior "pareto_gamma" F_pareto_gamma ["n"; "ln_x_total"; "x_m"] cGamma ab;
  posterior "gamma" F_gamma ["x_total"; "x_prod"; "n"] cGammaProportional ["p"; "q"; "r"; "s"];
  posterior "gamma_known_rate" F_gamma_known_rate ["x_prod"; "n"; "beta"] cGammaKnownRateProportional ["a"; "b"; "c"];
  posterior "beta" F_beta ["x_prod"; "one_minus_x_prod"; "n"] cBetaProportional ["p"; "q"; "k"];
  posterior "von_mises_known_concentration" F_von_mises_known_concentration ["cos_total"; "sin_total"; "n"; "kappa"]
    cVonMisesKnownConcentration ["a"; "b"];
  posterior "von_mises_known_direction" F_von_mises_known_direction ["centered_cos_total"; "n"]
    cVonMisesKnownDirectionProportional ["c"; "r"];
  posterior "weibull_inverse_gamma_known_shape" F_weibull ["n"; "x_beta_total"] cInverseGamma ab ].

Section Calls.
Context {A : Type} {NA : Num A}.

(** The value a keyword has, each keyword being given once *)
Definition has (kw : kwargs (pyval A)) (k : string) (o : obj (pyval A)) : Prop := In (k, o) kw.
Definition omitted (kw : kwargs (pyval A)) (k : string) : Prop := forall o, ~ In (k, o) kw.
Definition is_num (o : obj (pyval A)) (a : A) : Prop := exists c sup, o = OInst c sup (VNum a).

(** Optional arguments and what they are when omitted: models.py:347, 408, 601,
    1461, 1510, 1667-1669 *)
Definition flag_arg (kw : kwargs (pyval A)) (b : bool) : Prop :=
  (omitted kw "one_start" /\ b = true) \/ exists c sup, has kw "one_start" (OInst c sup (VBool b)).
Definition fun1_arg (kw : kwargs (pyval A)) (k : string) (default f : A -> A) : Prop :=
  (omitted kw k /\ f = default) \/ exists c sup, has kw k (OInst c sup (VFun1 f)).
Definition fun2_arg (kw : kwargs (pyval A)) (k : string) (default f : A -> A -> A) : Prop :=
  (omitted kw k /\ f = default) \/ exists c sup, has kw k (OInst c sup (VFun2 f)).
(** [U]: numpy's functions; [U']: the functions of this call *)
Definition optional_args (U U' : Ufuncs A) (kw : kwargs (pyval A)) (f : fn) : Prop :=
  match f with
  | F_geometric_beta b | F_geometric_beta_predictive b => flag_arg kw b
  | F_uniform_pareto => fun2_arg kw "max_fn" (u_max U) (u_max U')
  | F_pareto_gamma => fun1_arg kw "ln" (u_ln U) (u_ln U')
  | F_von_mises_known_concentration =>
      fun1_arg kw "sin" (u_sin U) (u_sin U') /\ fun1_arg kw "cos" (u_cos U) (u_cos U') /\
      fun2_arg kw "arctan2" (u_arctan2 U) (u_arctan2 U')
  | _ => True
  end.
Definition optional_names (f : fn) : list string :=
  match f with
  | F_geometric_beta _ | F_geometric_beta_predictive _ => ["one_start"]
  | F_uniform_pareto => ["max_fn"]
  | F_pareto_gamma => ["ln"]
  | F_von_mises_known_concentration => ["sin"; "cos"; "arctan2"]
  | _ => []
  end.
(** the only number with a default *)
Definition default (f : fn) (name : string) : option A :=
  match f with F_poisson_gamma_predictive => if String.eqb name "n" then Some (nlit 1%Z) else None | _ => None end.

(** [d] is the prior: an instance of the class, with these attributes (and possibly others) *)
Definition is_prior (i : interface) (d : obj (pyval A)) (numbers : list (string * A)) : Prop :=
  exists c sup fields, d = OInst c sup (VDist fields) /\ NoDup (map fst fields) /\
    In (i_class i) (c :: sup) /\ (forall o c', In o (i_not i) -> In c' (c :: sup) -> cls_id c' <> cls_id o) /\
    (forall n a, In (n, a) numbers -> In (n, ANum a) fields) /\
    (forall n k, In (n, k) (i_fixed i) -> In (n, constant_attr k) fields).

(** A proper call: [values] are the numbers in the order of [i_slots] *)
Definition proper_call (U U' : Ufuncs A) (i : interface) (values : list A) (d : obj (pyval A)) (kw : kwargs (pyval A)) : Prop :=
  length values = length (i_slots i) /\ NoDup (map fst kw) /\
  (forall k a, In (Arg k, a) (combine (i_slots i) values) ->
     (exists o, has kw k o /\ is_num o a) \/ (omitted kw k /\ default (i_fn i) k = Some a)) /\
  has kw (i_parameter i) d /\
  is_prior i d (flat_map (fun p => match fst p with Attr n => [(n, snd p)] | Arg _ => [] end) (combine (i_slots i) values)) /\
  optional_args U U' kw (i_fn i) /\
  (forall k o, In (k, o) kw -> k = i_parameter i \/ In (Arg k) (i_slots i) \/ In k (optional_names (i_fn i))).

(** The result: an instance with exactly these attributes *)
Definition is_result (i : interface) (d r : obj (pyval A)) (values : list A) : Prop :=
  length values = length (i_attrs i) /\
  exists c sup fields, r = OInst c sup (VDist fields) /\
    Permutation fields (combine (i_attrs i) (map ANum values) ++ map (fun p => (fst p, constant_attr (snd p))) (i_result_fixed i)) /\
    match i_result i with
    | Some c' => c = c' /\ In (c, sup) library
    | None => exists v, d = OInst c sup v
    end.

(** The class of the result of [i] is that of the prior of [i'] *)
Definition feeds (i i' : interface) : Prop := match i_result i with Some c => c | None => i_class i end = i_class i'.
Definition prior_names (i : interface) : list string :=
  flat_map (fun s => match s with Attr n => [n] | Arg _ => [] end) (i_slots i).
End Calls.
