# DESIGN

Formal model of `wd60622/conjugate` 0.12.0 (Python, in /repo) in Rocq/Coq 8.16.1.

## Approach

* `theories/Model/*.v`: the Python code function by function, small total Gallina
  functions, each citing file and lines. Arithmetic is written once over an
  interface `Num` (the operators of `conjugate/_typing.py:NUMERIC` plus `**`) so that
  the same definition is instantiated at real numbers, at error-carrying reals
  (ZeroDivisionError, ...), at symbolic (SQL-like) expressions, at broadcasting arrays
  and at rounded (floating-point) reals.
* `theories/Spec/*.v`: independent specifications: densities of the scipy objects,
  Bayes' rule (evidence = improper integral), marginalisation, convolution,
  broadcasting, indexing, histories of plot calls, use of random numbers.
* `theories/Analysis/*.v`: improper integrals, Gamma, Beta, Gaussian and t integrals,
  iterated integrals, positive definite matrices, multivariate Gaussian and
  inverse-Wishart integrals.
* `theories/Proofs/*.v`: lemmas. `theories/Properties/*.v`: the property
  theorems (closed by a lemma), non-vacuity examples, `Print Assumptions`.
* `theories/Tests/*.v`: the expectations of the repository's own tests, evaluated in
  the model. Tests of the model, not proofs.

Properties that the code does not satisfy are stated in full and answered by a
theorem with suffix `_refuted` (witness or general disproof), next to what does hold.
In MANIFEST.json such a property has status "partial" and a note starting with or
containing "REFUTED".

## Plan per property

* **C01** binomial_beta returns the Bayes posterior — real model of the update + `Beta.dist`/`Binomial.dist`; Bayes spec `bayes_rule` (evidence is an improper integral, Coquelicot). Proof: Beta integral exists and is positive, pointwise algebra, induction on the data list.
* **C02** negative_binomial_beta returns the Bayes posterior — as C01.
* **C03** geometric_beta returns the Bayes posterior in both start conventions — as C01; both conventions.
* **C04** poisson_gamma returns the Bayes posterior — Gamma integral (existence, positivity, scaling).
* **C05** exponential_gamma returns the Bayes posterior of the rate — expected false of the code: `_refuted` with witness, plus what the code does compute.
* **C06** gamma_known_shape returns the Bayes posterior of the rate — as C04.
* **C07** inverse_gamma_known_rate returns the Bayes posterior — as C04.
* **C08** normal_known_variance and normal_known_precision return the Bayes posterior of the mean — Gaussian integral.
* **C09** normal_known_mean returns the Bayes posterior of the variance for both prior families — inverse-gamma integral by substitution t=1/v.
* **C10** normal returns the Bayes posterior of (mean, variance) — joint densities; factorised normal x inverse gamma.
* **C11** uniform_pareto returns the Bayes posterior of the upper bound — Pareto integral.
* **C12** pareto_gamma returns the Bayes posterior of the Pareto shape — as C04.
* **C13** weibull_inverse_gamma_known_shape returns the Bayes posterior — as C09.
* **C14** gamma / gamma_known_rate / beta return the unnormalised Bayes posterior — proportionality with explicit constant, `lgamma` an arbitrary function of the parameter.
* **C15** von_mises_known_direction returns the unnormalised Bayes posterior of the concentration — as C14, `i0` an arbitrary positive function.
* **C16** von_mises_known_concentration returns the Bayes posterior of the direction — expected false: `_refuted` + conditions under which it holds.
* **C17** hypergeometric_beta_binomial returns the Bayes posterior of the number of successes in the population — expected false: `_refuted` + the true posterior proved in the spec.
* **C18** Dirichlet models return the Bayes posterior — vectors as lists; proportionality on the simplex.
* **C19** Dirichlet parameter addition is element-wise for every container combination — containers as an inductive type with Python `+`/zip; `_refuted` for lists and for mismatching arrays.
* **C20** binomial_beta_predictive is the marginal of the binomial under the Beta — marginal as `is_RInt_gen`; Beta integral.
* **C21** negative_binomial_beta_predictive is the marginal of the negative binomial under the Beta — as C20.
* **C22** geometric_beta_predictive pmf is the marginal of the geometric under the Beta — expected false: `_refuted` (pmf sums to beta/(alpha+beta)) + shift theorem.
* **C23** poisson_gamma_predictive is the marginal count distribution — n=1 proved; n<>1 `_refuted`.
* **C24** gamma_known_shape_predictive is the marginal of the gamma under the Gamma — needs Beta-Gamma relation.
* **C25** normal_known_variance_predictive / normal_known_precision_predictive are the marginal of the normal — Gaussian integral.
* **C26** normal_known_mean_predictive is the marginal of the normal over the variance — inverse-gamma integral.
* **C27** normal_predictive is the marginal of the normal over mean and variance — Gaussian then inverse-gamma integral.
* **C28** Sequential updating equals batch updating — induction over batch lists, permutations.
* **C29** Sequential updating with normal is well defined and order independent — as C28 with invariant nu>0; exception-carrying numeric instance for n=0.
* **C30** Posterior parameters stay in the valid domain — invariants; Cauchy-Schwarz over data lists.
* **C31** Posterior mean is a compromise and uncertainty shrinks — real inequalities and limits.
* **C32** Vectorised calls equal element-wise scalar calls — NumPy arrays (shape + index function, broadcasting) as an instance of the numeric interface; relational parametricity of each model function.
* **C33** Models work for anything that acts like a number — symbolic expressions as an instance of the numeric interface; same parametricity theorems.
* **C34** Slicing a distribution selects the same element of every parameter — SliceMixin over Python values.
* **C35** Out-of-range slicing is reported — expected false: `_refuted`.
* **C36** Wrong prior/distribution type is rejected with ValueError before any computation — decorator over Python objects with MROs; Union case `_refuted`.
* **C37** ScaledInverseChiSquared and InverseGamma conversions are mutually inverse and density preserving — algebra + density equality.
* **C38** Alternative constructors mean what they say — algebra.
* **C39** Poisson and NegativeBinomial arithmetic is the distribution of sums — finite convolution sums (binomial theorem, Vandermonde).
* **C40** Gamma, Exponential and Normal arithmetic is the distribution of sums — convolution integrals (Beta-Gamma relation, Gaussian).
* **C41** dist has the density the docstring parameters describe — density equalities per class; `_refuted` for Exponential, Uniform, LogNormal.
* **C42** Marginals of multivariate distributions by integer indexing are the true marginals — list-indexed vectors/matrices; StudentT `_refuted`.
* **C43** linear_regression returns the Bayes posterior — mathcomp matrices over a real field.
* **C44** linear_regression sequential updating equals batch updating — as C43.
* **C45** linear_regression_predictive has the marginal moments of the regression — as C43.
* **C46** multivariate normal with known covariance/precision returns the Bayes posterior — as C43.
* **C47** multivariate_normal_known_mean returns the Bayes posterior of the covariance — as C43 (trace form).
* **C48** multivariate_normal returns the Bayes posterior (NIW) and its predictive is consistent with the univariate model — as C43.
* **C49** Plot bounds behave as a state machine — state machine, induction over histories.
* **C50** Plot grids cover exactly the requested range — lists of grid points.
* **C51** Conditional pmf is the conditional distribution given the bounds — columns of pmf values; vectorised case `_refuted`.
* **C52** Labels are assigned one per curve in order — lists of labels.
* **C53** NormalInverseGamma takes exactly one of delta_inverse and nu — smart constructor.
* **C54** Deprecated aliases are equivalent to their replacements — effects as a log of warnings.
* **C55** Sampling mean and variance describe the same parameter for both normal conjugate families — RNG as an abstract state machine; `_refuted`.
* **C56** Samples drawn with a seed are as independent as with a generator — RNG as an abstract state machine; `_refuted`.
* **C57** compound_gamma and beta_geometric samplers have the broadcast shape — shapes with broadcasting.
* **C58** Raises exactly when — error-carrying reals instance, one explicit condition per function (`Spec/Defined.v`).
* **C59** Dirichlet predictives — iterated integral over the simplex, induction on the dimension.
* **C60** rvs and pdf/pmf of the hand-written classes — generator model; law of the two-stage draw as a marginal; `_refuted` for beta_geometric.
* **C61** One row per sample — shapes of the generator model; boundary cases `_refuted`.
* **C62** Each curve belongs to one member — calls on the Axes from the array evaluation of every class's dist property; induction-free, by a relation between arrays and members; densities by field name against a table (`Spec/Textbook.v`).
* **C63** A distribution with bounds can be plotted — complete list of exceptions; `_refuted` for two cdfs, for lists in four fields and for matrices of parameters.
* **C64** BetaNegativeBinomial.dist per scipy release — version order on tuples.
* **C65** Default bounds show the whole distribution — grid against support for each class whose constructor sets bounds; `_refuted` for Uniform (low > 0) and BetaNegativeBinomial.
* **C66** Total mass one — integrals by substitution from Gamma, Beta and Gauss integrals; negative binomial as a Gamma mixture of Poissons, beta-negative-binomial as a Beta mixture; `_refuted` for BetaGeometric.
* **C67** Exact floats — binary64 (Flocq) as an instance of the numeric interface; induction on the formulas of `Model/Symbolic.v`.
* **C68** Relative error — induction on formulas without subtraction of computed numbers; `**` assumed accurate to two roundings.
* **C69** Valid parameters in floating point — from C68; `_refuted` by concrete inputs where cancellation occurs.
* **C70** Batches in floating point — induction on the list of batches; exactness `_refuted` by absorption.
* **C71** Calls by name — decorators, forwarders and formulas joined (`Model/ByName.v`), against a table of the documented interface (`Spec/Interface.v`).
* **C72** Axis texts and ticks — what `draw` does to the Axes besides the curves.
* **C73** Colours of the curves — the property cycle of an Axes as state (`Model/Axes.v`); refuted for the plot that follows one with `color`.
* **C74** The chain rule of probability — one step at a time, by induction over the sequence, from one generic lemma (`Proofs/Prequential.v`).
* **C75** Array models and scalar models agree where both apply — diagonal covariances coordinate by coordinate, one dimension, a constant covariate, two categories (`Proofs/OneDim.v`, `Proofs/Overlap.v`).
* **C76** Scalar models of the same situation agree — refuted for `exponential_gamma` and the geometric predictive.
* **C77** Nothing is learned on average — the posterior averaged over the predictive is the prior, from the chain rule for one observation and the total mass of the likelihood; the means by a shift of the prior's parameters (`Proofs/Calibration.v`).
* **C78** On average an observation reduces the variance — the exact factor for each model, by the same shift of parameters (`Proofs/Spread.v`).
* **C79** Data never make an unknown vector less certain — quadratic forms of inverses of sums (`Proofs/Loewner.v`).
* **C80** Dirichlet means, samples and tables — integrals over the simplex by a shift of alpha (`Proofs/SimplexMoments.v`); `VectorizedDist` with scipy's argument checks and squeezing as external facts; the shape is refuted for one category.
* **C81** chain rule and averages over the predictive for the array models — parameters read off the returned arrays (`Spec/PrequentialArrays.v`), from C43–C48 by the general chain of C74 and C77.
* **C82** total mass, means and covariances of the vector and matrix distributions and of the predictives, and posterior means averaged over the predictive (`Spec/VectorMoments.v`). Moments of radial kernels are integrated coordinate by coordinate (`Analysis/RadialMoments.v`); the inverse Wishart mean by induction on the dimension for every linear form of the matrix (`Analysis/InvWishartMean.v`).
* **C83** shapes: what the matrix functions do with flat vectors, columns and sizes that do not match (`Spec/ArrayShapes.v`), for every element type. Numpy's broadcasting silently accepts several of them; the theorems say which and with what result.
* **C84** limits: posteriors concentrate and predictives tend to the sampling distribution (`Spec/Limits.v`). A stream of data is a sequence of summaries `n N`, `x N` with `n N` tending to infinity and averages converging; that random data give such streams (the law of large numbers) is outside the model.
* **C85** the exercises of `scripts/parameter-recovery.py` (`Model/Scripts.v`, `Spec/Recovery.v`): expectations under the true distribution, concentration at the true value, quantiles.
* **C86** SQL columns as inputs (`Model/Sql.v`: PyPika terms and their rendering; `Spec/SqlReading.v`: reading and evaluating SQL arithmetic). PyPika is an external library: its rendering rule is modelled so that it reproduces the texts printed in the documentation (`Tests/SqlText.v`).
* **C87** programs of the documentation (`Model/DocPrograms.v`: Thompson sampling over an arbitrary generator, the running posterior, post-engagement.py; the window prediction of limit.md uses the model function itself).
* **C88** stochastic order of posteriors (`Spec/Dominance.v`: `moved_up`, by the probabilities of all lower intervals; proof by densities with an increasing ratio, `Analysis/Dominance.v`).
* **C89** the regression page: `create_X`, predictions and their scales as functions of the new regressor (`Proofs/Widens.v`).
* **C90** the bootstrap page: maximum of several new counts (`Spec/Maximum.v`: `all_at_most`; the strict Jensen inequality is in `Proofs/Maximum.v`).
* **C91** predictive densities of models without a predictive function (`Proofs/Unsupported.v`).
* **C92** shapes of `dist.rvs(size)` over scipy's rule in `Model/Sampling.v`.
* **C93** monotonicity of the computed parameters in binary64 (`Spec/FloatOrder.v`), derived from the exact formulas.
* **C94** one coordinate of the joint laws and the flat prior of `normal` (`Spec/Classical.v`: `average`, `sample_variance`, `flat`, `first_alone`).
* **C95** Python's dispatch of `*` and `+` (`Model/Operators.v`) and what it does with numbers, arrays and instances (`Spec/Operators.v`).
* **C96** quantiles, central credible intervals and the list of continuous distributions (`Spec/Quantile.v`).
* **C97** numpy's integer types with wrap-around and NEP 50 promotion as one more instance of the numeric interface (`Model/IntTypes.v`); limits by abstract interpretation of the same table.
* **C98** the batch loop of bayesian-update.md over calls by name; the invariant is "the prior of the next pass has the parameters of all the data so far".
* **C99** the methods `@dataclass` generates: argument binding as a relation (`receives`, `well_formed`), the order of the fields against the docstrings, `==` with CPython's identity shortcut and numpy's truth values.
* **C100** missing values: a hand-written table of which argument enters which parameter (`Spec/Missing.v`), checked against the model by running the same table of functions on booleans and on pairs (`Proofs/Missing.v`, parametricity).
* **C101** the page on scaling: the law of k X by probabilities of intervals (`Spec/Scaling.v`) against the operator `*`.
* **C102** limits of vectors and matrices entry by entry (`Spec/VectorLimits.v`): the vector models with unlimited data.
* **C103** `regret_at_most`, `regret_reached`, `regret_exact`, `regret_at_most_for`, `gamma_factor`, `beta_factor`, `joint_factor` (`Spec/Regret.v`): the predict-and-update loop against the best parameter in hindsight.
* **C104** `graph`, `one_curve` (`Spec/DocFigures.v`): the figures of four documentation pages.
* **C105** `reads`, `denotes`, `suits` (`Spec/TupleKeys.v`): which place of a grid a tuple key denotes.
* **C106** `clashes`, `no_clash`, `data_count` (`Spec/NpBool.v`): the arguments a formula adds, subtracts or squares, which may not all be numpy booleans.
* **C107** `no_regret`, `no_regret_for`, `spread_data` (`Spec/Regret.v`): the same loop, its cost per trial or observation in the long run.
* **C108** `only_adds_variance`, `raises_with`, `same_shapes` (`Spec/ReturnVariance.v`): the calls with and without `return_variance`, from the same state of the random numbers.
* **C109** `read_call`, `prints`, `printable` (`Spec/Repr.v`): a reader of call expressions `Class(name=value, ...)`, and the numbers whose text reads back as the number.

## What is modelled

| /repo/conjugate | model | remarks |
|---|---|---|
| `_typing.py` | `Model/Num.v` | the protocol NUMERIC as a type class |
| binary64 arithmetic of the element-wise functions | `Model/Float64.v` | + - * / rounded to nearest even (Flocq); `**`, `ln`, `sin`, ... are arguments |
| `models.py` element-wise functions | `Model/Models.v`, `Model/Table.v` | every one; `Table` lists them for statements about all |
| `models.py:430-561` Dirichlet | `Model/DirichletModel.v` | numbers, flat lists, tuples, arrays |
| `models.py:1370-1452, 1719-2065` matrices | `Model/MatrixModel.v` | over broadcasting arrays with `@`, `.T`, `inv` as an argument |
| `models.py:73-98` decorators | `Model/Validate.v` | classes, MRO, annotations, messages, keyword binding |
| `models.py` calls by keyword | `Model/ByName.v` | element-wise functions: decorator, keyword binding, defaults, forwarding, class of the result |
| `distributions.py` dataclasses, constructors, arithmetic | `Model/Dists.v` | |
| `distributions.py` `.dist` properties | `Model/ScipyDist.v` | which scipy call with which arguments |
| `distributions.py` `VectorizedDist`, `Dirichlet.dist` | `Model/VectorizedDist.v` | `scipy.stats.dirichlet` constructor, mean and rvs shapes as external facts; the random numbers are an argument |
| `distributions.py` sampling methods | `Model/Sampling.v` | draws as requests to an abstract generator, ghost log |
| `distributions.py` `__getitem__` | `Model/SliceModel.v`, `Model/MultiIndex.v` | integer, list, mask and slice keys |
| `slice.py` | `Model/SliceModel.v`, `Model/TupleKeys.v` | tuple keys of integers, slices, None and Ellipsis; no lists or arrays inside a tuple |
| `plot.py` | `Model/PlotModel.v` | bounds as mutable objects with aliasing, grids, conditional values, labels, ticks |
| `plot.py` drawing | `Model/Draw.v` | the calls on the Axes, and which lines matplotlib makes of the arrays |
| `plot.py` colours | `Model/Axes.v` | the property cycle of an Axes across plots |
| `_beta_geometric.py`, `_compound_gamma.py` | `Model/ScipyDist.v` (pdf/pmf), `Model/Sampling.v` (rvs) | |
| the operators of `distributions.py` between arbitrary Python values | `Model/Operators.v` | one-dimensional arrays; where numpy returns inf or nan for an element, the model raises |
| the element-wise functions on numpy's integer types | `Model/IntTypes.v` | numpy 2 promotion (the locked version); scalars, or one element of an array; no rounding; raises where numpy returns inf or nan |
| the same with numpy booleans among the arguments | `Model/NpBool.v` | no `** 2` of a boolean; no float16 rounding |
| `/repo/docs/examples/bayesian-update.md` | `Model/DocLoop.v` | the loops, with calls by name; data are arbitrary, the scatter plot is not modelled |
| `@dataclass` on the classes of `distributions.py` (`__init__`, `__eq__`, `NormalInverseGamma.__post_init__`) | `Model/Dataclass.v` | Python 3.10-3.12; parameters are arrays, lists of numbers, flags or None with addresses; no hash; the truth value of an empty array as in numpy 2.0 |
| `@dataclass` on the same classes (`__repr__`) | `Model/Repr.v` | the text of a number and of an array is an argument |
| `/repo/scripts/parameter-recovery.py` | `Model/Scripts.v` | the set-ups; the data are arbitrary, plots are not modelled |
| `/repo/docs/examples/sql.md`, `generalized-inputs.md` | `Model/Sql.v` | the calls with SQL columns; PyPika's terms and rendering are a model of an external library; lexing of names and numbers is not modelled |
| `/repo/docs/examples/plotting.md`, `vectorized-inputs.md`, `indexing.md`, `binomial.md` | `Model/DocFigures.v` | the plots on one Axes; legends, vertical lines, titles and line styles are left out |
| `/repo/docs/examples/thompson.md`, `limit.md`, `linear-regression.md` (`create_X`), `bootstrap.md` (`get_posterior_predictive`), `/repo/docs/index.md`, `/repo/scripts/post-engagement.py` | `Model/DocPrograms.v` | the loops and calls; drawing, plotting and pandas are not modelled (draws are arbitrary functions of the generator's state) |

## What is not modelled

* matplotlib beyond the lines `Axes.plot` makes (figures, line styles) and `gaussian_kde`; pandas, pypika and
  other number-like libraries, except through the symbolic instance of `Num` and `Model/Sql.v`.
* scipy's numerical algorithms. A `.dist` property is modelled by the scipy call it
  makes; the density or mass of that call is the textbook formula of the scipy
  documentation (`Spec/Densities.v`, `Spec/Wishart.v`, `Spec/Multivariate.v`).
  Which numbers a scipy sampler returns is an arbitrary function of the request and
  the generator state; the shape rules of `rvs` are those of the documentation.
* floating point, except in C67-C70 and C93 (element-wise functions): all other theorems are about
  exact real arithmetic. Integer overflow of numpy dtypes and dtype promotion appear in C97
  and C106 only.
* nested Python lists as Dirichlet parameters, 0-d arrays as opposed to numbers,
  lists and arrays inside a tuple key.
* `tests/` (the expectations of the tests are used in `theories/Tests`), the pages of `docs/`
  not listed above, and the plots of `scripts/`.

Simplifications are noted in the comment of the definition concerned. External
functions (`np.linalg.inv`, `np.outer`, `ln`, `sin`, `cos`, `arctan2`, `lgamma`, `i0`,
`max_fn`) are arguments of the model; a theorem assumes of them only what its statement
says.

## Trusted base

* The Coq 8.16.1 kernel (and `coqchk`), the OCaml runtime.
* The axioms listed by `Print Assumptions`, theorem by theorem in ASSUMPTIONS.md
  (generated by `tools/assumptions.py`). They are all the standard library's:
  `ClassicalDedekindReals.sig_forall_dec`, `ClassicalDedekindReals.sig_not_dec` and
  `FunctionalExtensionality.functional_extensionality_dep` (the construction of the
  real numbers), `Classical_Prop.classic` (used by the real analysis of the standard
  library and Coquelicot) and `ClassicalEpsilon.constructive_indefinite_description`
  (choice; iterated integrals and matrices over R as a mathcomp field).
  `coqchk` in addition lists the constants that the standard library and mathcomp
  seal behind module signatures (`Rdefinitions.RbaseSymbolsImpl`, `bigop.BigOp`,
  `finfun.FinfunDef`, ...): these have definitions and are not axioms.
* The reading of Python in `Model/` and of the scipy and numpy documentation in
  `Spec/` and in the shape rules of `Model/NdArray.v` and `Model/Sampling.v`.
* No axioms, parameters or admitted proofs of our own; no kernel check is switched off.

## Testing the theorems

`seeded/run.py` edits a definition in a scratch copy, rebuilds, and reports the
theorems whose proofs no longer go through. `seeded/mutants.json` are the edits,
`seeded/LOG.jsonl` the results.
