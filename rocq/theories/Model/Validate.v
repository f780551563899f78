(** The type-validation decorators and the call protocol of the model functions.

    A Python object is its class, the other classes of its MRO, and an opaque
    value; a call yields a trace of observable events and a result or an exception.
    Class identity is [cls_id]; the name is only used in messages. *)

From Coq Require Import String List Bool Arith.
From Verif Require Import Model.Py.
Import ListNotations.
Open Scope string_scope.
Open Scope list_scope.

Record cls := mkCls { cls_id : nat; cls_name : string }.

(** The mixins of slice.py and plot.py, Python's NoneType, and the classes of distributions.py *)
Definition cSliceMixin := mkCls 0 "SliceMixin".
Definition cPlotDistMixin := mkCls 1 "PlotDistMixin".
Definition cContinuousPlotDistMixin := mkCls 2 "ContinuousPlotDistMixin".
Definition cDirichletPlotDistMixin := mkCls 3 "DirichletPlotDistMixin".
Definition cDiscretePlotMixin := mkCls 4 "DiscretePlotMixin".
Definition cNoneType := mkCls 5 "NoneType".
(** distributions.py:66 *)
Definition cBeta := mkCls 6 "Beta".
(** distributions.py:106 *)
Definition cBinomial := mkCls 7 "Binomial".
(** distributions.py:144 *)
Definition cDirichlet := mkCls 8 "Dirichlet".
(** distributions.py:170 *)
Definition cMultinomial := mkCls 9 "Multinomial".
(** distributions.py:188 *)
Definition cDirichletMultinomial := mkCls 10 "DirichletMultinomial".
(** distributions.py:206 *)
Definition cExponential := mkCls 11 "Exponential".
(** distributions.py:227 *)
Definition cGamma := mkCls 12 "Gamma".
(** distributions.py:256 *)
Definition cNegativeBinomial := mkCls 13 "NegativeBinomial".
(** distributions.py:279 *)
Definition cHypergeometric := mkCls 14 "Hypergeometric".
(** distributions.py:305 *)
Definition cPoisson := mkCls 15 "Poisson".
(** distributions.py:331 *)
Definition cBetaBinomial := mkCls 16 "BetaBinomial".
(** distributions.py:357 *)
Definition cBetaNegativeBinomial := mkCls 17 "BetaNegativeBinomial".
(** distributions.py:387 *)
Definition cGeometric := mkCls 18 "Geometric".
(** distributions.py:406 *)
Definition cBetaGeometric := mkCls 19 "BetaGeometric".
(** distributions.py:426 *)
Definition cNormal := mkCls 20 "Normal".
(** distributions.py:465 *)
Definition cMultivariateNormal := mkCls 21 "MultivariateNormal".
(** distributions.py:489 *)
Definition cUniform := mkCls 22 "Uniform".
(** distributions.py:511 *)
Definition cPareto := mkCls 23 "Pareto".
(** distributions.py:529 *)
Definition cInverseGamma := mkCls 24 "InverseGamma".
(** distributions.py:547 *)
Definition cNormalInverseGamma := mkCls 25 "NormalInverseGamma".
(** distributions.py:671 *)
Definition cStudentT := mkCls 26 "StudentT".
(** distributions.py:691 *)
Definition cMultivariateStudentT := mkCls 27 "MultivariateStudentT".
(** distributions.py:719 *)
Definition cLomax := mkCls 28 "Lomax".
(** distributions.py:737 *)
Definition cCompoundGamma := mkCls 29 "CompoundGamma".
(** distributions.py:757 *)
Definition cGammaKnownRateProportional := mkCls 30 "GammaKnownRateProportional".
(** distributions.py:794 *)
Definition cGammaProportional := mkCls 31 "GammaProportional".
(** distributions.py:834 *)
Definition cBetaProportional := mkCls 32 "BetaProportional".
(** distributions.py:873 *)
Definition cVonMises := mkCls 33 "VonMises".
(** distributions.py:895 *)
Definition cVonMisesKnownConcentration := mkCls 34 "VonMisesKnownConcentration".
(** distributions.py:926 *)
Definition cVonMisesKnownDirectionProportional := mkCls 35 "VonMisesKnownDirectionProportional".
(** distributions.py:955 *)
Definition cScaledInverseChiSquared := mkCls 36 "ScaledInverseChiSquared".
(** distributions.py:1001 *)
Definition cNormalGamma := mkCls 37 "NormalGamma".
(** distributions.py:1084 *)
Definition cInverseWishart := mkCls 38 "InverseWishart".
(** distributions.py:1102 *)
Definition cWishart := mkCls 39 "Wishart".
(** distributions.py:1120 *)
Definition cNormalWishart := mkCls 40 "NormalWishart".
(** distributions.py:1206 *)
Definition cNormalInverseWishart := mkCls 41 "NormalInverseWishart".
(** distributions.py:1293 *)
Definition cLogNormal := mkCls 42 "LogNormal".
(** distributions.py:1311 *)
Definition cWeibull := mkCls 43 "Weibull".

(** The distribution classes with the other classes of their MRO ([object] omitted). *)
Definition library : list (cls * list cls) :=
[ (cBeta, [cContinuousPlotDistMixin; cPlotDistMixin; cSliceMixin]);
  (cBinomial, [cDiscretePlotMixin; cPlotDistMixin; cSliceMixin]);
  (cDirichlet, [cDirichletPlotDistMixin; cContinuousPlotDistMixin; cPlotDistMixin]);
  (cMultinomial, [cSliceMixin]);
  (cDirichletMultinomial, [cSliceMixin]);
  (cExponential, [cContinuousPlotDistMixin; cPlotDistMixin; cSliceMixin]);
  (cGamma, [cContinuousPlotDistMixin; cPlotDistMixin; cSliceMixin]);
  (cNegativeBinomial, [cDiscretePlotMixin; cPlotDistMixin; cSliceMixin]);
  (cHypergeometric, [cDiscretePlotMixin; cPlotDistMixin; cSliceMixin]);
  (cPoisson, [cDiscretePlotMixin; cPlotDistMixin; cSliceMixin]);
  (cBetaBinomial, [cDiscretePlotMixin; cPlotDistMixin; cSliceMixin]);
  (cBetaNegativeBinomial, [cDiscretePlotMixin; cPlotDistMixin; cSliceMixin]);
  (cGeometric, [cDiscretePlotMixin; cPlotDistMixin; cSliceMixin]);
  (cBetaGeometric, [cDiscretePlotMixin; cPlotDistMixin; cSliceMixin]);
  (cNormal, [cContinuousPlotDistMixin; cPlotDistMixin; cSliceMixin]);
  (cMultivariateNormal, []);
  (cUniform, [cContinuousPlotDistMixin; cPlotDistMixin; cSliceMixin]);
  (cPareto, [cContinuousPlotDistMixin; cPlotDistMixin; cSliceMixin]);
  (cInverseGamma, [cContinuousPlotDistMixin; cPlotDistMixin; cSliceMixin]);
  (cNormalInverseGamma, []);
  (cStudentT, [cContinuousPlotDistMixin; cPlotDistMixin; cSliceMixin]);
  (cMultivariateStudentT, []);
  (cLomax, [cContinuousPlotDistMixin; cPlotDistMixin; cSliceMixin]);
  (cCompoundGamma, [cContinuousPlotDistMixin; cPlotDistMixin; cSliceMixin]);
  (cGammaKnownRateProportional, []);
  (cGammaProportional, []);
  (cBetaProportional, []);
  (cVonMises, [cContinuousPlotDistMixin; cPlotDistMixin; cSliceMixin]);
  (cVonMisesKnownConcentration, []);
  (cVonMisesKnownDirectionProportional, []);
  (cScaledInverseChiSquared, [cContinuousPlotDistMixin; cPlotDistMixin; cSliceMixin]);
  (cNormalGamma, []);
  (cInverseWishart, []);
  (cWishart, []);
  (cNormalWishart, []);
  (cNormalInverseWishart, []);
  (cLogNormal, [cContinuousPlotDistMixin; cPlotDistMixin; cSliceMixin]);
  (cWeibull, [cContinuousPlotDistMixin; cPlotDistMixin; cSliceMixin]) ].

(** A parameter annotation: one class, or [A | B] (a types.UnionType). *)
Inductive annotation := Single (c : cls) | Union (cs : list cls).

(** A decorated model function: name, keyword-only parameters (all of them are;
    [true] = required), the validated parameter and its annotation. *)
Record signature := mkSig
  { sig_name : string; sig_params : list (string * bool); sig_parameter : string; sig_annotation : annotation }.

Inductive event := Ran (name : string) | Warned (msg : string).
Definition outcome (B : Type) : Type := (list event * res B)%type.

Section Calls.
Context {V : Type}.

Inductive obj := ONone | OInst (c : cls) (supers : list cls) (v : V).
Definition kwargs := list (string * obj).

Definition get (k : string) (kw : kwargs) : obj :=
  match find (fun p => String.eqb (fst p) k) kw with Some p => snd p | None => ONone end.

Definition type_of (o : obj) : cls := match o with ONone => cNoneType | OInst c _ _ => c end.
Definition is_instance1 (o : obj) (c : cls) : bool :=
  match o with
  | ONone => Nat.eqb (cls_id cNoneType) (cls_id c)
  | OInst d supers _ => existsb (fun d => Nat.eqb (cls_id d) (cls_id c)) (d :: supers)
  end.
Definition is_instance (o : obj) (a : annotation) : bool :=
  match a with Single c => is_instance1 o c | Union cs => existsb (is_instance1 o) cs end.

(** [annotation.__name__]: a UnionType has none. *)
Definition ann_name (a : annotation) : res string :=
  match a with
  | Single c => Ok (cls_name c)
  | Union _ => Raise (AttributeError "'types.UnionType' object has no attribute '__name__'")
  end.

(** [repr] of a string without quotes or backslashes *)
Definition repr (s : string) : string := ("'" ++ s ++ "'")%string.

(** models.py:73-90 validate_type (with models.py:93-98, which fix [parameter]) *)
Definition validate_type {B} (expected_type : option annotation) (parameter : string)
  (func : list obj -> kwargs -> outcome B) (args : list obj) (kw : kwargs) : outcome B :=
  match expected_type with
  | None => func args kw
  | Some e =>
      let parameter_value := get parameter kw in
      let recieved_type := type_of parameter_value in
      if is_instance parameter_value e then func args kw
      else ([], let* n := ann_name e in
                Raise (ValueError ("Expected " ++ parameter ++ " to be of type " ++ repr n ++ ", "
                                   ++ "got " ++ repr (cls_name recieved_type) ++ " instead.")%string))
  end.

(** Python's binding of the arguments of a function whose parameters are all keyword-only. *)
Definition binds (params : list (string * bool)) (args : list obj) (kw : kwargs) : bool :=
  match args with [] => true | _ => false end
  && forallb (fun k => existsb (fun p => String.eqb (fst p) (fst k)) params) kw
  && forallb (fun p => negb (snd p) || existsb (fun k => String.eqb (fst k) (fst p)) kw) params.
Definition py_function {B} (s : signature) (body : kwargs -> outcome B) (args : list obj) (kw : kwargs) : outcome B :=
  if binds (sig_params s) args kw then let '(ev, r) := body kw in (Ran (sig_name s) :: ev, r)
  else ([], Raise (TypeError "wrong arguments")).

(** The decorated function. *)
Definition call {B} (s : signature) (body : kwargs -> outcome B) : list obj -> kwargs -> outcome B :=
  validate_type (Some (sig_annotation s)) (sig_parameter s) (py_function s body).

(** Bodies that call another decorated function by keyword: an argument is passed
    on or computed from the arguments. *)
Inductive source := FromArg (p : string) | Computed (f : kwargs -> obj).
Definition forward {B} (inner : signature) (sources : list (string * source)) (inner_body : kwargs -> outcome B)
  (kw : kwargs) : outcome B :=
  call inner inner_body [] (map (fun p => (fst p, match snd p with FromArg q => get q kw | Computed f => f kw end)) sources).

(** [warnings.warn] (with a filter that does not turn warnings into errors) *)
Definition warn {B} (msg : string) (k : kwargs -> outcome B) (kw : kwargs) : outcome B :=
  let '(ev, r) := k kw in (Warned msg :: ev, r).

End Calls.
Arguments obj : clear implicits.
Arguments kwargs : clear implicits.
Arguments source : clear implicits.

(** All decorated functions of models.py, in file order *)
Definition signatures : list signature :=
[ (* models.py:113-165 *) mkSig "binomial_beta" [("n", true); ("x", true); ("prior", true)] "prior" (Single cBeta);
  (* models.py:168-220 *) mkSig "binomial_beta_predictive" [("n", true); ("distribution", true)] "distribution" (Single cBeta);
  (* models.py:223-255 *) mkSig "bernoulli_beta" [("x", true); ("prior", true)] "prior" (Single cBeta);
  (* models.py:258-271 *) mkSig "bernoulli_beta_predictive" [("distribution", true)] "distribution" (Single cBeta);
  (* models.py:274-293 *) mkSig "negative_binomial_beta" [("r", true); ("n", true); ("x", true); ("prior", true)] "prior" (Single cBeta);
  (* models.py:296-314 *) mkSig "negative_binomial_beta_predictive" [("r", true); ("distribution", true)] "distribution" (Single cBeta);
  (* models.py:317-343 *) mkSig "hypergeometric_beta_binomial" [("x_total", true); ("n", true); ("prior", true)] "prior" (Single cBetaBinomial);
  (* models.py:346-401 *) mkSig "geometric_beta" [("x_total", true); ("n", true); ("prior", true); ("one_start", false)] "prior" (Single cBeta);
  (* models.py:404-427 *) mkSig "geometric_beta_predictive" [("distribution", true); ("one_start", false)] "distribution" (Single cBeta);
  (* models.py:445-459 *) mkSig "categorical_dirichlet" [("x", true); ("prior", true)] "prior" (Single cDirichlet);
  (* models.py:462-479 *) mkSig "categorical_dirichlet_predictive" [("distribution", true); ("n", false)] "distribution" (Single cDirichlet);
  (* models.py:490-541 *) mkSig "multinomial_dirichlet" [("x", true); ("prior", true)] "prior" (Single cDirichlet);
  (* models.py:544-561 *) mkSig "multinomial_dirichlet_predictive" [("distribution", true); ("n", false)] "distribution" (Single cDirichlet);
  (* models.py:577-594 *) mkSig "poisson_gamma" [("x_total", true); ("n", true); ("prior", true)] "prior" (Single cGamma);
  (* models.py:597-617 *) mkSig "poisson_gamma_predictive" [("distribution", true); ("n", false)] "distribution" (Single cGamma);
  (* models.py:624-641 *) mkSig "exponential_gamma" [("x_total", true); ("n", true); ("prior", true)] "prior" (Single cGamma);
  (* models.py:644-695 *) mkSig "exponential_gamma_predictive" [("distribution", true)] "distribution" (Single cGamma);
  (* models.py:698-764 *) mkSig "gamma_known_shape" [("x_total", true); ("n", true); ("alpha", true); ("prior", true)] "prior" (Single cGamma);
  (* models.py:767-783 *) mkSig "gamma_known_shape_predictive" [("distribution", true); ("alpha", true)] "distribution" (Single cGamma);
  (* models.py:786-809 *) mkSig "inverse_gamma_known_rate" [("reciprocal_x_total", true); ("n", true); ("alpha", true); ("prior", true)] "prior" (Single cGamma);
  (* models.py:812-879 *) mkSig "normal_known_variance" [("x_total", true); ("n", true); ("var", true); ("prior", true)] "prior" (Single cNormal);
  (* models.py:882-945 *) mkSig "normal_known_variance_predictive" [("var", true); ("distribution", true)] "distribution" (Single cNormal);
  (* models.py:948-1014 *) mkSig "normal_known_precision" [("x_total", true); ("n", true); ("precision", true); ("prior", true)] "prior" (Single cNormal);
  (* models.py:1017-1086 *) mkSig "normal_known_precision_predictive" [("precision", true); ("distribution", true)] "distribution" (Single cNormal);
  (* models.py:1103-1139 *) mkSig "normal_known_mean" [("x_total", true); ("x2_total", true); ("n", true); ("mu", true); ("prior", true)] "prior" (Union [cInverseGamma; cScaledInverseChiSquared]);
  (* models.py:1142-1215 *) mkSig "normal_known_mean_predictive" [("mu", true); ("distribution", true)] "distribution" (Union [cInverseGamma; cScaledInverseChiSquared]);
  (* models.py:1238-1287 *) mkSig "normal" [("x_total", true); ("x2_total", true); ("n", true); ("prior", true)] "prior" (Union [cNormalInverseGamma; cNormalGamma]);
  (* models.py:1290-1318 *) mkSig "normal_normal_inverse_gamma" [("x_total", true); ("x2_total", true); ("n", true); ("prior", true)] "prior" (Single cNormalInverseGamma);
  (* models.py:1321-1345 *) mkSig "normal_predictive" [("distribution", true)] "distribution" (Union [cNormalInverseGamma; cNormalGamma]);
  (* models.py:1348-1367 *) mkSig "normal_normal_inverse_gamma_predictive" [("distribution", true)] "distribution" (Single cNormalInverseGamma);
  (* models.py:1370-1421 *) mkSig "linear_regression" [("X", true); ("y", true); ("prior", true); ("inv", false)] "prior" (Single cNormalInverseGamma);
  (* models.py:1424-1452 *) mkSig "linear_regression_predictive" [("distribution", true); ("X", true); ("eye", false)] "distribution" (Single cNormalInverseGamma);
  (* models.py:1455-1500 *) mkSig "uniform_pareto" [("x_max", true); ("n", true); ("prior", true); ("max_fn", false)] "prior" (Single cPareto);
  (* models.py:1503-1569 *) mkSig "pareto_gamma" [("n", true); ("ln_x_total", true); ("x_m", true); ("prior", true); ("ln", false)] "prior" (Single cGamma);
  (* models.py:1572-1599 *) mkSig "gamma" [("x_total", true); ("x_prod", true); ("n", true); ("prior", true)] "prior" (Single cGammaProportional);
  (* models.py:1602-1627 *) mkSig "gamma_known_rate" [("x_prod", true); ("n", true); ("beta", true); ("prior", true)] "prior" (Single cGammaKnownRateProportional);
  (* models.py:1630-1656 *) mkSig "beta" [("x_prod", true); ("one_minus_x_prod", true); ("n", true); ("prior", true)] "prior" (Single cBetaProportional);
  (* models.py:1659-1691 *) mkSig "von_mises_known_concentration" [("cos_total", true); ("sin_total", true); ("n", true); ("kappa", true); ("prior", true); ("sin", false); ("cos", false); ("arctan2", false)] "prior" (Single cVonMisesKnownConcentration);
  (* models.py:1694-1715 *) mkSig "von_mises_known_direction" [("centered_cos_total", true); ("n", true); ("prior", true)] "prior" (Single cVonMisesKnownDirectionProportional);
  (* models.py:1734-1769 *) mkSig "multivariate_normal_known_covariance" [("n", true); ("x_bar", true); ("cov", true); ("prior", true); ("inv", false)] "prior" (Single cMultivariateNormal);
  (* models.py:1772-1790 *) mkSig "multivariate_normal_known_covariance_predictive" [("distribution", true); ("cov", true)] "distribution" (Single cMultivariateNormal);
  (* models.py:1793-1826 *) mkSig "multivariate_normal_known_precision" [("n", true); ("x_bar", true); ("precision", true); ("prior", true); ("inv", false)] "prior" (Single cMultivariateNormal);
  (* models.py:1829-1849 *) mkSig "multivariate_normal_known_precision_predictive" [("distribution", true); ("precision", true); ("inv", false)] "distribution" (Single cMultivariateNormal);
  (* models.py:1852-1876 *) mkSig "multivariate_normal_known_mean" [("X", true); ("mu", true); ("prior", true)] "prior" (Single cInverseWishart);
  (* models.py:1879-1960 *) mkSig "multivariate_normal" [("X", true); ("prior", true); ("outer", false)] "prior" (Single cNormalInverseWishart);
  (* models.py:1963-2065 *) mkSig "multivariate_normal_predictive" [("distribution", true)] "distribution" (Single cNormalInverseWishart);
  (* models.py:2068-2143 *) mkSig "log_normal" [("ln_x_total", true); ("ln_x2_total", true); ("n", true); ("prior", true)] "prior" (Union [cNormalInverseGamma; cNormalGamma]);
  (* models.py:2146-2167 *) mkSig "weibull_inverse_gamma_known_shape" [("n", true); ("x_beta_total", true); ("prior", true)] "prior" (Single cInverseGamma) ].


(** Look a function up by name. *)
Definition sig_of (name : string) : signature :=
  match find (fun s => String.eqb (sig_name s) name) signatures with
  | Some s => s | None => mkSig "" [] "" (Union []) end.

(** The functions whose body is a call of another decorated function:
    outer name, warning, inner name, arguments passed on.  [one] is the literal 1,
    [recip] computes [1 / precision]. *)
Section Forwarders.
Context {V : Type} (one : obj V) (recip : obj V -> obj V).
Record forwarder := mkFwd
  { fwd_outer : string; fwd_warning : option string; fwd_inner : string; fwd_sources : list (string * source V) }.
Definition forwarders : list forwarder :=
[ (* models.py:255 *)
  mkFwd "bernoulli_beta" None "binomial_beta"
    [("n", Computed (fun _ => one)); ("x", FromArg "x"); ("prior", FromArg "prior")];
  (* models.py:271 *)
  mkFwd "bernoulli_beta_predictive" None "binomial_beta_predictive"
    [("n", Computed (fun _ => one)); ("distribution", FromArg "distribution")];
  (* models.py:1009-1014 *)
  mkFwd "normal_known_precision" None "normal_known_variance"
    [("x_total", FromArg "x_total"); ("n", FromArg "n"); ("var", Computed (fun kw => recip (get "precision" kw))); ("prior", FromArg "prior")];
  (* models.py:1083-1086 *)
  mkFwd "normal_known_precision_predictive" None "normal_known_variance_predictive"
    [("var", Computed (fun kw => recip (get "precision" kw))); ("distribution", FromArg "distribution")];
  (* models.py:1312-1318 *)
  mkFwd "normal_normal_inverse_gamma" (Some "This function is deprecated. Use 'normal' instead.") "normal"
    [("x_total", FromArg "x_total"); ("x2_total", FromArg "x2_total"); ("n", FromArg "n"); ("prior", FromArg "prior")];
  (* models.py:1362-1367 *)
  mkFwd "normal_normal_inverse_gamma_predictive" (Some "This function is deprecated. Use 'normal_predictive' instead.")
    "normal_predictive" [("distribution", FromArg "distribution")];
  (* models.py:2138-2143 *)
  mkFwd "log_normal" None "normal"
    [("x_total", FromArg "ln_x_total"); ("x2_total", FromArg "ln_x2_total"); ("n", FromArg "n"); ("prior", FromArg "prior")] ].

Definition fwd_body {B} (f : forwarder) (inner_body : kwargs V -> outcome B) : kwargs V -> outcome B :=
  let k := forward (sig_of (fwd_inner f)) (fwd_sources f) inner_body in
  match fwd_warning f with Some w => warn w k | None => k end.
Definition fwd_of (name : string) : forwarder :=
  match find (fun f => String.eqb (fwd_outer f) name) forwarders with Some f => f | None => mkFwd "" None "" [] end.

(** models.py:1290-1318 and models.py:1348-1367, the deprecated names; the body
    of the function they forward to is a parameter *)
Definition alias_posterior {B} (normal_body : kwargs V -> outcome B) : list (obj V) -> kwargs V -> outcome B :=
  call (sig_of "normal_normal_inverse_gamma") (fwd_body (fwd_of "normal_normal_inverse_gamma") normal_body).
Definition alias_predictive {B} (normal_body : kwargs V -> outcome B) : list (obj V) -> kwargs V -> outcome B :=
  call (sig_of "normal_normal_inverse_gamma_predictive") (fwd_body (fwd_of "normal_normal_inverse_gamma_predictive") normal_body).
End Forwarders.
Arguments forwarder : clear implicits.
