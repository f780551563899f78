{"id": "C01", "title": "binomial_beta returns the Bayes posterior", "statement": "For a Beta prior with positive parameters and any finite sequence of binomial experiments, the density of the Beta returned by binomial_beta (called with the total number of trials and total successes) is, at every p in (0,1), prior density times the product of Binomial(n_i,p).dist.pmf(x_i), divided by the evidence integral over (0,1); the evidence is finite and positive. bernoulli_beta is the single-trial case and agrees with binomial_beta(n=1).", "quantifier": "all alpha,beta>0; all finite lists of (n_i,x_i) with x_i<=n_i; all p in (0,1)", "why_tests_cant": "A test fixes a handful of priors and data sets; Bayes' rule is a claim about every prior, every data set and every point of the parameter space (a density identity).", "anchors": ["conjugate/models.py:binomial_beta", "conjugate/models.py:get_binomial_beta_posterior_params", "conjugate/models.py:bernoulli_beta", "conjugate/distributions.py:Beta.dist", "conjugate/distributions.py:Binomial.dist"]}
{"id": "C02", "title": "negative_binomial_beta returns the Bayes posterior", "statement": "For a Beta prior with positive parameters, known r and any finite list of observed NegativeBinomial(n=r,p) counts, negative_binomial_beta(r, n=len(data), x=sum(data)) is the normalised Bayes posterior of p.", "quantifier": "all alpha,beta,r>0; all lists of naturals; all p in (0,1)", "why_tests_cant": "A test fixes a handful of priors and data sets; Bayes' rule is a claim about every prior, every data set and every point of the parameter space (a density identity).", "anchors": ["conjugate/models.py:negative_binomial_beta", "conjugate/distributions.py:NegativeBinomial.dist", "conjugate/distributions.py:Beta.dist"]}
{"id": "C03", "title": "geometric_beta returns the Bayes posterior in both start conventions", "statement": "For a Beta prior with positive parameters and any list of Geometric(p, one_start).dist outcomes, geometric_beta(x_total=sum, n=len, one_start=one_start) is the normalised Bayes posterior of p, for one_start True (outcomes >=1) and False (outcomes >=0).", "quantifier": "all alpha,beta>0; all lists of outcomes in the support; both conventions; all p in (0,1)", "why_tests_cant": "A test fixes a handful of priors and data sets; Bayes' rule is a claim about every prior, every data set and every point of the parameter space (a density identity).", "anchors": ["conjugate/models.py:geometric_beta", "conjugate/distributions.py:Geometric.dist"]}
{"id": "C04", "title": "poisson_gamma returns the Bayes posterior", "statement": "For a Gamma prior with positive parameters and any list of Poisson(lam).dist counts, poisson_gamma(x_total=sum, n=len) is the normalised Bayes posterior of lam under Gamma.dist (shape alpha, rate beta).", "quantifier": "all alpha,beta>0; all lists of naturals; all lam>0", "why_tests_cant": "A test fixes a handful of priors and data sets; Bayes' rule is a claim about every prior, every data set and every point of the parameter space (a density identity).", "anchors": ["conjugate/models.py:poisson_gamma", "conjugate/models.py:get_poisson_gamma_posterior_params", "conjugate/distributions.py:Gamma.dist", "conjugate/distributions.py:Poisson.dist"]}
{"id": "C05", "title": "exponential_gamma returns the Bayes posterior of the rate", "statement": "For a Gamma(alpha shape, beta rate) prior on the rate of an exponential likelihood, exponential_gamma(x_total, n) is the Bayes posterior Gamma(alpha+n, beta+x_total), and exponential_gamma_predictive is the posterior predictive Lomax(shape alpha, scale beta).", "quantifier": "all alpha,beta>0; all lists of positive outcomes; all rates lam>0", "why_tests_cant": "A test fixes a handful of priors and data sets; Bayes' rule is a claim about every prior, every data set and every point of the parameter space (a density identity). The existing test only checks the returned type.", "anchors": ["conjugate/models.py:exponential_gamma", "conjugate/models.py:get_exponential_gamma_posterior_params", "conjugate/models.py:exponential_gamma_predictive", "conjugate/distributions.py:Lomax.dist"]}
{"id": "C06", "title": "gamma_known_shape returns the Bayes posterior of the rate", "statement": "For a Gamma prior on the rate and any list of Gamma(alpha_known, rate).dist outcomes, gamma_known_shape(x_total=sum, n=len, alpha=alpha_known) is the normalised Bayes posterior.", "quantifier": "all prior parameters, known shapes >0; all lists of positive reals; all rates >0", "why_tests_cant": "A test fixes a handful of priors and data sets; Bayes' rule is a claim about every prior, every data set and every point of the parameter space (a density identity).", "anchors": ["conjugate/models.py:gamma_known_shape", "conjugate/distributions.py:Gamma.dist"]}
{"id": "C07", "title": "inverse_gamma_known_rate returns the Bayes posterior", "statement": "For a Gamma prior on the scale of an InverseGamma(alpha_known, .) likelihood, inverse_gamma_known_rate(reciprocal_x_total=sum of 1/x, n=len, alpha=alpha_known) is the normalised Bayes posterior.", "quantifier": "all prior parameters, known alphas >0; all lists of positive reals", "why_tests_cant": "A test fixes a handful of priors and data sets; Bayes' rule is a claim about every prior, every data set and every point of the parameter space (a density identity).", "anchors": ["conjugate/models.py:inverse_gamma_known_rate", "conjugate/distributions.py:InverseGamma.dist"]}
{"id": "C08", "title": "normal_known_variance and normal_known_precision return the Bayes posterior of the mean", "statement": "For a Normal prior (sigma>0), known variance (resp. precision) and any list of Normal outcomes, the returned Normal is the normalised Bayes posterior of the mean, and the two functions agree when precision = 1/var.", "quantifier": "all mu, sigma>0, var>0; all lists of reals; all means", "why_tests_cant": "A test fixes a handful of priors and data sets; Bayes' rule is a claim about every prior, every data set and every point of the parameter space (a density identity).", "anchors": ["conjugate/models.py:normal_known_variance", "conjugate/models.py:normal_known_precision", "conjugate/distributions.py:Normal.dist"]}
{"id": "C09", "title": "normal_known_mean returns the Bayes posterior of the variance for both prior families", "statement": "For an InverseGamma prior on the variance, normal_known_mean is the normalised Bayes posterior; with a ScaledInverseChiSquared prior it returns a ScaledInverseChiSquared whose .dist is the Bayes posterior for that prior's .dist, and both routes give the same density when the priors are the same density.", "quantifier": "all positive prior parameters; all known means; all lists of reals; all variances v>0", "why_tests_cant": "A test fixes a handful of priors and data sets; Bayes' rule is a claim about every prior, every data set and every point of the parameter space (a density identity).", "anchors": ["conjugate/models.py:normal_known_mean", "conjugate/models.py:_normal_known_mean_inverse_gamma_prior", "conjugate/distributions.py:ScaledInverseChiSquared"]}
{"id": "C10", "title": "normal returns the Bayes posterior of (mean, variance)", "statement": "For a NormalInverseGamma prior (1-d, nu given) the posterior returned by normal has joint density proportional to prior joint density times the normal likelihood of every non-empty data list; for NormalGamma the same for (mean, precision); the constant does not depend on the parameters. log_normal is the same for the logarithms of the data.", "quantifier": "all mu, nu/lam>0, alpha>0, beta>0; all non-empty lists of reals; all (mean,variance)", "why_tests_cant": "A test fixes a handful of priors and data sets; Bayes' rule is a claim about every prior, every data set and every point of the parameter space (a density identity).", "anchors": ["conjugate/models.py:normal", "conjugate/models.py:_normal", "conjugate/models.py:log_normal", "conjugate/distributions.py:NormalInverseGamma", "conjugate/distributions.py:NormalGamma"]}
{"id": "C11", "title": "uniform_pareto returns the Bayes posterior of the upper bound", "statement": "For a Pareto prior and any non-empty list of Uniform(0,theta) outcomes, uniform_pareto(x_max=max, n=len) is the normalised Bayes posterior of theta.", "quantifier": "all x_m,alpha>0; all non-empty lists of positive reals; all theta>0", "why_tests_cant": "A test fixes a handful of priors and data sets; Bayes' rule is a claim about every prior, every data set and every point of the parameter space (a density identity).", "anchors": ["conjugate/models.py:uniform_pareto", "conjugate/distributions.py:Pareto.dist"]}
{"id": "C12", "title": "pareto_gamma returns the Bayes posterior of the Pareto shape", "statement": "For a Gamma prior on the shape and any list of Pareto(x_m, shape).dist outcomes >= x_m, pareto_gamma(n=len, ln_x_total=sum of logs, x_m) is the normalised Bayes posterior.", "quantifier": "all prior parameters, x_m >0; all lists of reals >= x_m; all shapes >0", "why_tests_cant": "A test fixes a handful of priors and data sets; Bayes' rule is a claim about every prior, every data set and every point of the parameter space (a density identity).", "anchors": ["conjugate/models.py:pareto_gamma", "conjugate/distributions.py:Pareto.dist"]}
{"id": "C13", "title": "weibull_inverse_gamma_known_shape returns the Bayes posterior", "statement": "For an InverseGamma prior on theta and any list of Weibull(beta, theta).dist outcomes, weibull_inverse_gamma_known_shape(n=len, x_beta_total=sum of x**beta) is the normalised Bayes posterior of theta.", "quantifier": "all prior parameters, beta >0; all lists of positive reals; all theta>0", "why_tests_cant": "A test fixes a handful of priors and data sets; Bayes' rule is a claim about every prior, every data set and every point of the parameter space (a density identity).", "anchors": ["conjugate/models.py:weibull_inverse_gamma_known_shape", "conjugate/distributions.py:Weibull.dist", "conjugate/distributions.py:InverseGamma.dist"]}
{"id": "C14", "title": "gamma / gamma_known_rate / beta return the unnormalised Bayes posterior", "statement": "For GammaProportional, GammaKnownRateProportional and BetaProportional, exp(posterior.approx_log_likelihood) is proportional (constant independent of the parameters) to exp(prior.approx_log_likelihood) times the Gamma (resp. Beta) likelihood of the data.", "quantifier": "all positive prior hyper-parameters; all lists of outcomes in the support; all shape/rate parameters >0", "why_tests_cant": "A test fixes a handful of priors and data sets; Bayes' rule is a claim about every prior, every data set and every point of the parameter space (a density identity).", "anchors": ["conjugate/models.py:gamma", "conjugate/models.py:gamma_known_rate", "conjugate/models.py:beta", "conjugate/distributions.py:GammaProportional.approx_log_likelihood", "conjugate/distributions.py:GammaKnownRateProportional.approx_log_likelihood", "conjugate/distributions.py:BetaProportional.approx_log_likelihood"]}
{"id": "C15", "title": "von_mises_known_direction returns the unnormalised Bayes posterior of the concentration", "statement": "exp(posterior.approx_log_likelihood(kappa)) is proportional to exp(prior.approx_log_likelihood(kappa)) times the von Mises likelihood with known direction, for any data list.", "quantifier": "all c, r; all lists of angles; all kappa>0", "why_tests_cant": "A test fixes a handful of priors and data sets; Bayes' rule is a claim about every prior, every data set and every point of the parameter space (a density identity).", "anchors": ["conjugate/models.py:von_mises_known_direction", "conjugate/distributions.py:VonMisesKnownDirectionProportional.approx_log_likelihood"]}
{"id": "C16", "title": "von_mises_known_concentration returns the Bayes posterior of the direction", "statement": "With a von Mises prior (concentration a, direction b) on the direction and known kappa, the posterior returned by von_mises_known_concentration is the von Mises density proportional to prior times likelihood.", "quantifier": "all a>=0, b, kappa>0; all lists of angles; all directions", "why_tests_cant": "A test fixes a handful of priors and data sets; Bayes' rule is a claim about every prior, every data set and every point of the parameter space (a density identity).", "anchors": ["conjugate/models.py:von_mises_known_concentration", "conjugate/distributions.py:VonMisesKnownConcentration"]}
{"id": "C17", "title": "hypergeometric_beta_binomial returns the Bayes posterior of the number of successes in the population", "statement": "With M ~ BetaBinomial(N,alpha,beta) and x drawn hypergeometrically, the returned BetaBinomial is the posterior of M; in particular the result depends on the number of draws n.", "quantifier": "all N, alpha, beta, n, x", "why_tests_cant": "A test fixes a handful of priors and data sets; Bayes' rule is a claim about every prior, every data set and every point of the parameter space (a density identity). The existing tests check one literal result.", "anchors": ["conjugate/models.py:hypergeometric_beta_binomial", "conjugate/distributions.py:BetaBinomial.dist"]}
{"id": "C18", "title": "Dirichlet models return the Bayes posterior", "statement": "For a Dirichlet prior with positive alpha and any list of multinomial count vectors, categorical_dirichlet and multinomial_dirichlet return the Dirichlet whose density is proportional to prior times likelihood on the whole simplex.", "quantifier": "all dimensions; all positive alpha vectors; all lists of count vectors; all points of the open simplex", "why_tests_cant": "A test fixes a handful of priors and data sets; Bayes' rule is a claim about every prior, every data set and every point of the parameter space (a density identity).", "anchors": ["conjugate/models.py:categorical_dirichlet", "conjugate/models.py:multinomial_dirichlet", "conjugate/models.py:get_dirichlet_posterior_params"]}
{"id": "C19", "title": "Dirichlet parameter addition is element-wise for every container combination", "statement": "get_dirichlet_posterior_params adds counts to alphas element by element, for numpy arrays, lists and tuples alike, and never silently drops or concatenates entries.", "quantifier": "all combinations of container kinds and all lengths", "why_tests_cant": "Only arrays plus scalars are exercised by tests; the fallback path depends on which exception + raises.", "anchors": ["conjugate/models.py:get_dirichlet_posterior_params"]}
{"id": "C20", "title": "binomial_beta_predictive is the marginal of the binomial under the Beta", "statement": "For every Beta and n, the pmf of binomial_beta_predictive(n).dist at k equals the integral over p of Binomial(n,p).dist.pmf(k) times the Beta density; it sums to 1 over k=0..n. bernoulli_beta_predictive is the n=1 case, with success probability alpha/(alpha+beta).", "quantifier": "all alpha,beta>0; all n; all k<=n", "why_tests_cant": "A test fixes a handful of priors and data sets; Bayes' rule is a claim about every prior, every data set and every point of the parameter space (a density identity).", "anchors": ["conjugate/models.py:binomial_beta_predictive", "conjugate/models.py:bernoulli_beta_predictive", "conjugate/distributions.py:BetaBinomial.dist"]}
{"id": "C21", "title": "negative_binomial_beta_predictive is the marginal of the negative binomial under the Beta", "statement": "The pmf of negative_binomial_beta_predictive(r).dist at k equals the integral over p of NegativeBinomial(r,p).dist.pmf(k) times the Beta density.", "quantifier": "all alpha,beta>0, r>0; all k", "why_tests_cant": "A test fixes a handful of priors and data sets; Bayes' rule is a claim about every prior, every data set and every point of the parameter space (a density identity).", "anchors": ["conjugate/models.py:negative_binomial_beta_predictive", "conjugate/distributions.py:BetaNegativeBinomial.dist"]}
{"id": "C22", "title": "geometric_beta_predictive pmf is the marginal of the geometric under the Beta", "statement": "BetaGeometric(...).dist.pmf(x) equals the integral over p of Geometric(p, one_start).dist.pmf(x) times the Beta density, and the pmf sums to one over the support; the zero-start pmf is the one-start pmf shifted by one.", "quantifier": "all alpha,beta>0; all x in the support; both conventions", "why_tests_cant": "The existing test only compares the two conventions with each other.", "anchors": ["conjugate/models.py:geometric_beta_predictive", "conjugate/_beta_geometric.py:beta_geometric_pmf", "conjugate/distributions.py:BetaGeometric.dist"]}
{"id": "C23", "title": "poisson_gamma_predictive is the marginal count distribution", "statement": "poisson_gamma_predictive(distribution).dist.pmf(k) equals the integral over lam of Poisson(lam).pmf(k) times the Gamma density; with n given, it is the marginal distribution of the count over n units of time, Poisson(n*lam).", "quantifier": "all alpha,beta>0; all n>0; all k", "why_tests_cant": "A test fixes a handful of priors and data sets; Bayes' rule is a claim about every prior, every data set and every point of the parameter space (a density identity).", "anchors": ["conjugate/models.py:poisson_gamma_predictive", "conjugate/distributions.py:NegativeBinomial.dist"]}
{"id": "C24", "title": "gamma_known_shape_predictive is the marginal of the gamma under the Gamma", "statement": "The density of gamma_known_shape_predictive(alpha).dist at x equals the integral over the rate of the Gamma(alpha, rate) density times the Gamma prior density.", "quantifier": "all positive parameters; all x>0", "why_tests_cant": "A test fixes a handful of priors and data sets; Bayes' rule is a claim about every prior, every data set and every point of the parameter space (a density identity).", "anchors": ["conjugate/models.py:gamma_known_shape_predictive", "conjugate/_compound_gamma.py:compound_gamma_pdf", "conjugate/distributions.py:CompoundGamma.dist"]}
{"id": "C25", "title": "normal_known_variance_predictive / normal_known_precision_predictive are the marginal of the normal", "statement": "The density of the returned Normal at x equals the integral over the mean of N(x; mean, var) times the distribution's density.", "quantifier": "all mu, sigma>0, var>0; all x", "why_tests_cant": "A test fixes a handful of priors and data sets; Bayes' rule is a claim about every prior, every data set and every point of the parameter space (a density identity).", "anchors": ["conjugate/models.py:normal_known_variance_predictive", "conjugate/models.py:normal_known_precision_predictive"]}
{"id": "C26", "title": "normal_known_mean_predictive is the marginal of the normal over the variance", "statement": "The density of the returned StudentT.dist at x equals the integral over the variance v of N(x; mu, v) times the InverseGamma density, for both prior families.", "quantifier": "all positive parameters; all mu, x", "why_tests_cant": "A test fixes a handful of priors and data sets; Bayes' rule is a claim about every prior, every data set and every point of the parameter space (a density identity).", "anchors": ["conjugate/models.py:normal_known_mean_predictive", "conjugate/distributions.py:StudentT.dist"]}
{"id": "C27", "title": "normal_predictive is the marginal of the normal over mean and variance", "statement": "The density of normal_predictive(...).dist at x equals the iterated integral over mean and variance of the normal density times the NormalInverseGamma density; the NormalGamma with the same numbers gives the same StudentT.", "quantifier": "all mu, nu, alpha, beta with nu,alpha,beta>0; all x", "why_tests_cant": "A test fixes a handful of priors and data sets; Bayes' rule is a claim about every prior, every data set and every point of the parameter space (a density identity).", "anchors": ["conjugate/models.py:normal_predictive", "conjugate/distributions.py:StudentT.dist"]}
{"id": "C28", "title": "Sequential updating equals batch updating", "statement": "For every model with additive sufficient statistics, folding the model function over any list of batches gives exactly the parameters obtained from one call with the summed statistics; batches can be reordered; an empty batch leaves the prior unchanged.", "quantifier": "all models in the family; all priors; all lists of batches, any length and order", "why_tests_cant": "The fold ranges over arbitrarily long histories.", "anchors": ["conjugate/models.py:binomial_beta", "conjugate/models.py:poisson_gamma", "conjugate/models.py:normal", "conjugate/models.py:normal_known_variance", "conjugate/models.py:normal_known_mean", "conjugate/models.py:uniform_pareto", "conjugate/models.py:pareto_gamma", "conjugate/models.py:gamma", "conjugate/models.py:beta", "conjugate/models.py:von_mises_known_direction", "conjugate/models.py:weibull_inverse_gamma_known_shape", "docs/examples/bayesian-update.md"]}
{"id": "C29", "title": "Sequential updating with normal is well defined and order independent", "statement": "For NormalInverseGamma and NormalGamma priors with positive precision, folding normal over any list of non-empty batches equals one call on the union; calling it with n=0 raises ZeroDivisionError instead of returning the prior.", "quantifier": "all priors with positive precision; all lists of non-empty batches", "why_tests_cant": "Order independence quantifies over all histories; the n=0 corner is not tested.", "anchors": ["conjugate/models.py:normal", "conjugate/models.py:_normal", "conjugate/models.py:log_normal"]}
{"id": "C30", "title": "Posterior parameters stay in the valid domain", "statement": "Starting from a proper prior and genuine sufficient statistics, every model returns parameters in the domain of the distribution (positive shapes, rates, scales, variances), so the posterior can be used as the next prior, for every history.", "quantifier": "all models; all proper priors; all data", "why_tests_cant": "For normal this needs Cauchy-Schwarz over arbitrary data lists.", "anchors": ["conjugate/models.py:normal", "conjugate/models.py:normal_known_mean", "conjugate/models.py:normal_known_variance", "conjugate/models.py:binomial_beta", "conjugate/models.py:geometric_beta", "conjugate/models.py:pareto_gamma"]}
{"id": "C31", "title": "Posterior mean is a compromise and uncertainty shrinks", "statement": "The posterior mean of normal_known_variance, binomial_beta, poisson_gamma lies between the prior mean and the data mean, posterior sigma of normal_known_variance is strictly smaller than the prior sigma after data, and the posterior mean converges to the data mean as the number of observations grows.", "quantifier": "all proper priors; all data; all sample sizes (limit)", "why_tests_cant": "Inequalities and limits over all inputs.", "anchors": ["conjugate/models.py:normal_known_variance", "conjugate/models.py:binomial_beta", "conjugate/models.py:poisson_gamma"]}
{"id": "C32", "title": "Vectorised calls equal element-wise scalar calls", "statement": "Calling any element-wise model with arrays of any broadcast-compatible shapes gives a posterior whose parameter arrays have the broadcast shape and whose every entry equals the scalar model called on the corresponding entries; incompatible shapes raise.", "quantifier": "all shapes, all array contents, all index positions, all element-wise model functions", "why_tests_cant": "Ranges over all shapes and broadcasting patterns.", "anchors": ["docs/examples/vectorized-inputs.md", "conjugate/models.py:binomial_beta", "conjugate/models.py:poisson_gamma", "conjugate/models.py:normal"]}
{"id": "C33", "title": "Models work for anything that acts like a number", "statement": "For any numeric-like type (for example SQL expressions) evaluating the symbolic posterior parameters in any row gives the same numbers as calling the model on the evaluated inputs; only the operators of the NUMERIC protocol plus ** are used.", "quantifier": "all expressions; all environments; all element-wise model functions", "why_tests_cant": "Ranges over all symbolic expressions and all rows.", "anchors": ["docs/examples/generalized-inputs.md", "docs/examples/sql.md", "conjugate/_typing.py:NUMERIC"]}
{"id": "C34", "title": "Slicing a distribution selects the same element of every parameter", "statement": "For scalar-or-vector parameters broadcasting to length m and an in-range index or list of indices, dist[key] has exactly the parameters at key, keeps scalars and flags, and slicing the posterior equals the posterior of the sliced inputs.", "quantifier": "all lengths, all in-range keys (also negative), all distributions using SliceMixin", "why_tests_cant": "Ranges over all lengths and keys.", "anchors": ["conjugate/slice.py:SliceMixin.__getitem__", "docs/examples/indexing.md"]}
{"id": "C35", "title": "Out-of-range slicing is reported", "statement": "Indexing a distribution with a key outside the length of its parameters raises an error rather than returning a distribution with unsliced parameters.", "quantifier": "all lengths, all out-of-range keys", "why_tests_cant": "Not tested at all.", "anchors": ["conjugate/slice.py:SliceMixin.__getitem__"]}
{"id": "C36", "title": "Wrong prior/distribution type is rejected with ValueError before any computation", "statement": "Every decorated model function called with a prior (resp. distribution) that is not an instance of the annotated class, or without it, raises ValueError naming the expected and received type, and the body is not executed; with an instance (subclasses included) the body runs.", "quantifier": "all decorated functions, all argument values of any class", "why_tests_cant": "Tests check one function with one wrong class; the Union-annotated functions are not tested.", "anchors": ["conjugate/models.py:validate_type", "conjugate/models.py:validate_prior_type", "conjugate/models.py:validate_distribution_type"]}
{"id": "C37", "title": "ScaledInverseChiSquared and InverseGamma conversions are mutually inverse and density preserving", "statement": "to_inverse_gamma(from_inverse_gamma(d)) = d and conversely, and the .dist of the converted object is the same density.", "quantifier": "all positive parameters; all points", "why_tests_cant": "Round trip is tested at one point.", "anchors": ["conjugate/distributions.py:ScaledInverseChiSquared.from_inverse_gamma", "conjugate/distributions.py:ScaledInverseChiSquared.to_inverse_gamma", "conjugate/distributions.py:ScaledInverseChiSquared.dist"]}
{"id": "C38", "title": "Alternative constructors mean what they say", "statement": "Beta.from_mean has the requested mean; Beta.from_successes_and_failures equals updating Beta.uninformative with those outcomes; Normal.from_mean_and_variance/precision have the requested variance/precision; Gamma.from_occurrences_in_intervals equals the limit of updating from zero.", "quantifier": "all valid arguments", "why_tests_cant": "Equalities over all arguments.", "anchors": ["conjugate/distributions.py:Beta.from_mean", "conjugate/distributions.py:Beta.from_successes_and_failures", "conjugate/distributions.py:Normal.from_mean_and_variance", "conjugate/distributions.py:Normal.from_mean_and_precision", "conjugate/distributions.py:Gamma.from_occurrences_in_intervals"]}
{"id": "C39", "title": "Poisson and NegativeBinomial arithmetic is the distribution of sums", "statement": "Poisson + Poisson and k*Poisson (k natural) have the pmf of the sum of independent variables (k-fold convolution); likewise k*NegativeBinomial; scaling is commutative (7*d == d*7).", "quantifier": "all rates, all sizes, all natural k, all points", "why_tests_cant": "Convolution identities at every point and every k.", "anchors": ["conjugate/distributions.py:Poisson.__add__", "conjugate/distributions.py:Poisson.__mul__", "conjugate/distributions.py:NegativeBinomial.__mul__", "docs/examples/scaling-distributions.md"]}
{"id": "C40", "title": "Gamma, Exponential and Normal arithmetic is the distribution of sums", "statement": "k*Gamma, k*Exponential and k*Normal have the distribution of the sum of k independent copies; (d*a)*b == d*(a*b).", "quantifier": "all parameters; all natural k; all points", "why_tests_cant": "Convolution identities at every point and every k.", "anchors": ["conjugate/distributions.py:Gamma.__mul__", "conjugate/distributions.py:Exponential.__mul__", "conjugate/distributions.py:Normal.__mul__", "docs/examples/scaling-distributions.md"]}
{"id": "C41", "title": "dist has the density the docstring parameters describe", "statement": "For every distribution class the scipy object returned by dist has the density of the documented parameterisation: Gamma(shape, rate), Exponential(rate), Uniform on [low, high], LogNormal (log is Normal(mu, sigma)), Weibull(beta, theta), Pareto, InverseGamma, ScaledInverseChiSquared, Geometric shift, ...", "quantifier": "all parameters; all points", "why_tests_cant": "Density identities at every point; tests never look at densities.", "anchors": ["conjugate/distributions.py:Exponential.dist", "conjugate/distributions.py:Uniform.dist", "conjugate/distributions.py:LogNormal.dist", "conjugate/distributions.py:Weibull.dist", "conjugate/distributions.py:Gamma.dist", "conjugate/distributions.py:Geometric.dist"]}
{"id": "C42", "title": "Marginals of multivariate distributions by integer indexing are the true marginals", "statement": "MultivariateNormal[k] and MultivariateStudentT[k] are the k-th marginal distribution (scale = square root of the diagonal entry); indexing with a list of positions selects the sub-vector and sub-matrix, and composes.", "quantifier": "all dimensions, all index lists", "why_tests_cant": "All dimensions and index lists; the existing test asserts the unsquared scale.", "anchors": ["conjugate/distributions.py:MultivariateNormal.__getitem__", "conjugate/distributions.py:MultivariateStudentT.__getitem__"]}
{"id": "C43", "title": "linear_regression returns the Bayes posterior", "statement": "For every design matrix, response and NormalInverseGamma prior with positive definite delta_inverse, prior joint density times likelihood is proportional to the posterior joint density (completing the square), the posterior delta_inverse is positive definite, alpha and beta stay positive.", "quantifier": "all dimensions N, B; all X, y; all proper priors; all coefficient vectors", "why_tests_cant": "A test fixes a handful of priors and data sets; Bayes' rule is a claim about every prior, every data set and every point of the parameter space (a density identity).", "anchors": ["conjugate/models.py:linear_regression"]}
{"id": "C44", "title": "linear_regression sequential updating equals batch updating", "statement": "Updating with (X1,y1) then (X2,y2) gives the same posterior as updating once with the stacked data, for any number of batches.", "quantifier": "all dimensions; all batches", "why_tests_cant": "Fold over arbitrary histories.", "anchors": ["conjugate/models.py:linear_regression"]}
{"id": "C45", "title": "linear_regression_predictive has the marginal moments of the regression", "statement": "Location is X mu, degrees of freedom 2 alpha, scale (beta/alpha)(I + X delta_inverse X^T), symmetric positive definite; it is the quadratic form obtained by marginalising the coefficients.", "quantifier": "all dimensions; all X; all proper distributions", "why_tests_cant": "A test fixes a handful of priors and data sets; Bayes' rule is a claim about every prior, every data set and every point of the parameter space (a density identity).", "anchors": ["conjugate/models.py:linear_regression_predictive"]}
{"id": "C46", "title": "multivariate normal with known covariance/precision returns the Bayes posterior", "statement": "The returned MultivariateNormal has the exponent prior + likelihood (completing the square), symmetric positive definite covariance; the covariance and precision variants agree; sequential equals batch; a user-supplied inv is used for every inversion.", "quantifier": "all dimensions; all proper priors; all sample means and sizes", "why_tests_cant": "A test fixes a handful of priors and data sets; Bayes' rule is a claim about every prior, every data set and every point of the parameter space (a density identity).", "anchors": ["conjugate/models.py:multivariate_normal_known_covariance", "conjugate/models.py:multivariate_normal_known_precision", "conjugate/models.py:_multivariate_normal_known_precision"]}
{"id": "C47", "title": "multivariate_normal_known_mean returns the Bayes posterior of the covariance", "statement": "psi grows by the scatter around the known mean, nu by the number of rows: log prior + log likelihood equals log posterior up to a constant for every precision matrix; sequential equals batch.", "quantifier": "all dimensions; all data; all covariances", "why_tests_cant": "A test fixes a handful of priors and data sets; Bayes' rule is a claim about every prior, every data set and every point of the parameter space (a density identity).", "anchors": ["conjugate/models.py:multivariate_normal_known_mean"]}
{"id": "C48", "title": "multivariate_normal returns the Bayes posterior (NIW) and its predictive is consistent with the univariate model", "statement": "For every data matrix with at least one row the NormalInverseWishart update completes the square in the mean, sequential equals batch, psi stays positive definite; for one dimension it coincides with normal and multivariate_normal_predictive with normal_predictive.", "quantifier": "all dimensions; all data; all proper priors", "why_tests_cant": "A test fixes a handful of priors and data sets; Bayes' rule is a claim about every prior, every data set and every point of the parameter space (a density identity).", "anchors": ["conjugate/models.py:multivariate_normal", "conjugate/models.py:multivariate_normal_predictive"]}
{"id": "C49", "title": "Plot bounds behave as a state machine", "statement": "For any history of set_min_value/set_max_value/set_bounds/slicing/plotting, plotting uses the last bounds set; plotting a distribution whose max value was never set raises ValueError; the default minimum is 0; constructors that set a maximum (Beta, Binomial, ...) can always be plotted.", "quantifier": "all histories of operations", "why_tests_cant": "Quantifies over histories.", "anchors": ["conjugate/plot.py:PlotDistMixin"]}
{"id": "C50", "title": "Plot grids cover exactly the requested range", "statement": "plot_pmf evaluates every integer from min_value to max_value inclusive, once, in order; plot_pdf evaluates 100 equally spaced points including both bounds.", "quantifier": "all bounds", "why_tests_cant": "All bounds.", "anchors": ["conjugate/plot.py:DiscretePlotMixin._create_x_values", "conjugate/plot.py:ContinuousPlotDistMixin._create_x_values"]}
{"id": "C51", "title": "Conditional pmf is the conditional distribution given the bounds", "statement": "With conditional=True every plotted curve is the pmf renormalised to sum to 1 over the grid; the conditional cdf ends at 1; for vectorised parameters each curve is normalised separately.", "quantifier": "all distributions, grids and numbers of curves", "why_tests_cant": "Only image comparison for one scalar distribution.", "anchors": ["conjugate/plot.py:DiscretePlotMixin._create_plot_on_axis"]}
{"id": "C52", "title": "Labels are assigned one per curve in order", "statement": "For several curves, None gives no labels, a string gives label 1..n, a callable is applied to 0..n-1, an iterable is passed through; for a single curve the label is used unchanged.", "quantifier": "all label kinds, all numbers of curves", "why_tests_cant": "All numbers of curves.", "anchors": ["conjugate/plot.py:label_to_iterable", "conjugate/plot.py:resolve_label"]}
{"id": "C53", "title": "NormalInverseGamma takes exactly one of delta_inverse and nu", "statement": "Construction succeeds iff exactly one of delta_inverse, nu is given, otherwise ValueError; normal with a matrix prior raises ValueError.", "quantifier": "all argument combinations", "why_tests_cant": "Finite but also for every value.", "anchors": ["conjugate/distributions.py:NormalInverseGamma.__post_init__", "conjugate/models.py:normal"]}
{"id": "C54", "title": "Deprecated aliases are equivalent to their replacements", "statement": "normal_normal_inverse_gamma and normal_normal_inverse_gamma_predictive return exactly what normal and normal_predictive return (after warning), and accept only NormalInverseGamma.", "quantifier": "all inputs", "why_tests_cant": "Equality for all inputs.", "anchors": ["conjugate/models.py:normal_normal_inverse_gamma", "conjugate/models.py:normal_normal_inverse_gamma_predictive"]}
{"id": "C55", "title": "Sampling mean and variance describe the same parameter for both normal conjugate families", "statement": "sample_variance of NormalGamma and NormalInverseGamma (and the Wishart families) sample the observation variance, so equal parameters give equal sampled variances from equal underlying draws.", "quantifier": "all parameters, sizes and random draws", "why_tests_cant": "Tests check shapes only.", "anchors": ["conjugate/distributions.py:NormalGamma.sample_variance", "conjugate/distributions.py:NormalInverseGamma.sample_variance", "conjugate/distributions.py:NormalInverseWishart.sample_variance", "conjugate/distributions.py:NormalWishart.sample_variance"]}
{"id": "C56", "title": "Samples drawn with a seed are as independent as with a generator", "statement": "sample_mean / sample_beta / rvs called with an integer random_state use different random draws for different samples, as they do with a Generator.", "quantifier": "all seeds, sizes, dimensions", "why_tests_cant": "A claim about every stream.", "anchors": ["conjugate/distributions.py:NormalInverseGamma._sample_beta_nd", "conjugate/distributions.py:NormalInverseGamma.sample_beta", "conjugate/_beta_geometric.py:beta_geometric.rvs", "conjugate/_compound_gamma.py:compound_gamma.rvs"]}
{"id": "C57", "title": "compound_gamma and beta_geometric samplers have the broadcast shape", "statement": "rvs(size) returns an array whose shape is the broadcast of the parameter shapes and size.", "quantifier": "all shapes", "why_tests_cant": "All shapes.", "anchors": ["conjugate/_beta_geometric.py:beta_geometric.rvs", "conjugate/_compound_gamma.py:compound_gamma.rvs"]}
{"id": "C58", "title": "Calls with Python numbers raise exactly when the formula divides by zero or leaves the reals", "statement": "For every element-wise function and every list of real arguments of the right number, the call returns if and only if the explicit condition of Spec/Defined.v holds (no division by zero, no root of a negative number, no logarithm of a non-positive number), and what it returns is the value of the real-number model.", "quantifier": "all element-wise functions; all real arguments", "why_tests_cant": "the raising set is a measure-zero or unbounded region per function; sampling tests never hit it and cannot show that nothing else raises", "anchors": ["conjugate/models.py:normal_known_variance", "conjugate/models.py:normal_predictive", "conjugate/distributions.py:Beta.from_mean", "conjugate/distributions.py:Exponential.__mul__"]}
{"id": "C59", "title": "Dirichlet predictives are the multinomial averaged over the posterior", "statement": "categorical_dirichlet_predictive and multinomial_dirichlet_predictive return the DirichletMultinomial whose mass function is the multinomial mass averaged over the Dirichlet density on the simplex; the masses over all count vectors with n trials add up to one; by default (one trial) category k has probability alpha_k / sum(alpha).", "quantifier": "all dimensions; all positive alpha vectors; all count vectors", "why_tests_cant": "An integral over a simplex of arbitrary dimension; not tested at all.", "anchors": ["conjugate/models.py:categorical_dirichlet_predictive", "conjugate/models.py:multinomial_dirichlet_predictive", "conjugate/distributions.py:DirichletMultinomial"]}
{"id": "C60", "title": "The hand-written distributions sample from the law they report", "statement": "The numbers returned by rvs of compound_gamma and beta_geometric follow the pdf / pmf of the same object.", "quantifier": "all positive parameters, shapes and sizes; all generators", "why_tests_cant": "The law of a two-stage draw is an integral over the mixing variable; histograms cannot distinguish close laws and the repository has no test comparing rvs with pdf.", "anchors": ["conjugate/_beta_geometric.py:beta_geometric.rvs", "conjugate/_beta_geometric.py:beta_geometric.pmf", "conjugate/_compound_gamma.py:compound_gamma.rvs", "conjugate/_compound_gamma.py:compound_gamma.pdf"]}
{"id": "C61", "title": "The joint samplers return one row per sample", "statement": "sample_beta / sample_mean with size k and an n-dimensional mean return an array of shape (k, n) (shape (k,) when n = 1), and with return_variance also k variances (or k covariance matrices of shape (n, n)).", "quantifier": "all k and n; all parameters; all generators", "why_tests_cant": "All shapes, including the boundary cases n = 1 and k = 0.", "anchors": ["conjugate/distributions.py:NormalInverseGamma.sample_beta", "conjugate/distributions.py:NormalGamma.sample_beta", "conjugate/distributions.py:NormalInverseWishart.sample_mean", "conjugate/distributions.py:NormalWishart.sample_mean"]}
{"id": "C62", "title": "Each curve of a plot is the function of one member of the family", "statement": "plot_pdf, plot_pmf and plot_cdf of a distribution whose parameters are numbers or vectors draw exactly one curve per member, in order, through the points (x, f_j(x)) for x in the grid, with the label belonging to it; the curve of member i is the one plotting d[i] with the same bounds draws.", "quantifier": "all plottable classes, parameters, bounds, labels, functions evaluated by scipy", "why_tests_cant": "All classes, all sizes of families, all bounds; tests only check that plotting does not fail.", "anchors": ["conjugate/plot.py:ContinuousPlotDistMixin", "conjugate/plot.py:DiscretePlotMixin", "conjugate/slice.py:SliceMixin"]}
{"id": "C63", "title": "A distribution with bounds set can be plotted", "statement": "Once bounds are set, plot_pdf, plot_pmf and plot_cdf of every plottable class succeed, and no curve mixes the distributions of several members.", "quantifier": "all plottable classes, parameters and bounds", "why_tests_cant": "Needs every class, method and parameter shape.", "anchors": ["conjugate/plot.py", "conjugate/_beta_geometric.py:beta_geometric", "conjugate/_compound_gamma.py:compound_gamma"]}
{"id": "C64", "title": "BetaNegativeBinomial.dist is available exactly from scipy 1.12.0 on", "statement": "With scipy release (major, minor, micro, ...) the dist property of BetaNegativeBinomial returns a distribution if and only if the release is at least 1.12.0 in version order, and raises NotImplementedError otherwise.", "quantifier": "all releases with at least three components; all parameters", "why_tests_cant": "A test run sees one installed scipy release; version comparison errors (1.9 against 1.12) show only with others.", "anchors": ["conjugate/distributions.py:BetaNegativeBinomial.dist"]}
{"id": "C65", "title": "Classes with default bounds plot their whole distribution", "statement": "Plotting an object of a class whose constructor sets bounds (Beta, Binomial, BetaBinomial, BetaNegativeBinomial, Hypergeometric, Uniform, VonMises), without setting bounds, shows every value of positive probability of every member of the family, and (counts) nothing beyond the largest possible value.", "quantifier": "all such classes, families and parameters", "why_tests_cant": "Needs all sizes of families and all orders of the parameters, and compares the grid with the support; tests only check that plotting does not fail.", "anchors": ["conjugate/distributions.py:Beta.__post_init__", "conjugate/distributions.py:Binomial.__post_init__", "conjugate/distributions.py:Hypergeometric.__post_init__", "conjugate/distributions.py:Uniform.__post_init__", "conjugate/distributions.py:VonMises.__post_init__", "conjugate/plot.py:PlotDistMixin"]}
{"id": "C66", "title": "Every distribution is a probability distribution", "statement": "For valid parameters the pdf or pmf behind .dist is nonnegative, is zero outside its support, and integrates or sums to one.", "quantifier": "all univariate classes, all valid parameters", "why_tests_cant": "An integral over an infinite range for a continuum of parameters; the defect of BetaGeometric shows only in the total.", "anchors": ["conjugate/distributions.py", "conjugate/_beta_geometric.py:beta_geometric", "conjugate/_compound_gamma.py:compound_gamma"]}
{"id": "C67", "title": "Floating-point results are exact when the numbers fit", "statement": "In IEEE binary64 arithmetic every element-wise function returns exactly the real-number result for each output computed with + - * / and maximum, whenever every intermediate result is representable; in particular the count updates are exact for whole numbers up to 2^26.", "quantifier": "all element-wise functions, all finite float arguments", "why_tests_cant": "Covers all representable inputs at once; tests compare a handful of values, often up to a tolerance.", "anchors": ["conjugate/models.py", "conjugate/distributions.py", "conjugate/_typing.py:NUMERIC"]}
{"id": "C68", "title": "Relative error of the functions that subtract nothing but inputs", "statement": "In binary64 the outputs of the functions whose formulas never subtract computed numbers are within a fixed number of roundings (relative error at most 2^-48) of the exact result and never overflow, for arguments that are zero or between 2^-100 and 2^100, if the C library's power is accurate to two roundings.", "quantifier": "43 element-wise functions and constructors, all such float arguments", "why_tests_cant": "A bound over all floats; sampling cannot exclude one bad input.", "anchors": ["conjugate/models.py", "conjugate/distributions.py"]}
{"id": "C69", "title": "Valid parameters stay valid in floating point", "statement": "In binary64, a call whose exact posterior has positive parameters returns positive parameters.", "quantifier": "all element-wise updates, all valid priors and data in float range", "why_tests_cant": "Cancellation shows only for special combinations of prior and data.", "anchors": ["conjugate/models.py:geometric_beta", "conjugate/models.py:_normal_known_mean_inverse_gamma_prior", "conjugate/models.py:_normal"]}
{"id": "C70", "title": "Updating batch by batch in floating point", "statement": "In binary64, updating with batches one after the other gives the posterior of the totals; exactly for whole numbers up to 2^53, and up to one rounding per batch otherwise.", "quantifier": "all sequences of batches for poisson_gamma, exponential_gamma, weibull_inverse_gamma_known_shape", "why_tests_cant": "Unbounded number of batches.", "anchors": ["conjugate/models.py:poisson_gamma", "conjugate/models.py:exponential_gamma", "conjugate/models.py:weibull_inverse_gamma_known_shape"]}
{"id": "C71", "title": "Calls by name reach the formula with the right arguments", "statement": "A call with keyword arguments, from the decorator through every function that forwards to another, returns an instance of the documented class whose attributes are the numbers computed from the arguments of those names; omitted arguments take the documented defaults, the order of keywords does not matter, and a result can be used as the prior of every function that expects its class.", "quantifier": "all element-wise functions, all keyword orders, all omitted optional arguments, all subclasses of the documented prior classes", "why_tests_cant": "The tests call each function with one spelling of its arguments; swapped arguments in a forwarder are invisible where the values coincide.", "anchors": ["conjugate/models.py:validate_prior_type", "conjugate/models.py:validate_distribution_type", "conjugate/models.py:normal_known_precision", "conjugate/models.py:normal_known_variance"]}
{"id": "C72", "title": "Axis texts and ticks of a plot", "statement": "A plot makes one call of ax.plot, labels both axes by what is drawn (for the conditional plot by the bounds in force) except on polar axes, and starts the y axis at zero after everything has been drawn; discrete plots have a tick at every point of the grid, from a width of 15 on with every fifth labelled.", "quantifier": "all classes, parameters, bounds, all combinations of plot options", "why_tests_cant": "The tests compare a few images.", "anchors": ["conjugate/plot.py:PlotDistMixin._setup_labels", "conjugate/plot.py:ContinuousPlotDistMixin.plot_pdf", "conjugate/plot.py:DiscretePlotMixin.plot_pmf", "conjugate/plot.py:DirichletPlotDistMixin"]}
{"id": "C73", "title": "Colours of the curves", "statement": "Curve j has the j-th of the colours given, starting again after the last; a plot without colours uses those of the Axes, going on where the previous plot stopped.", "quantifier": "all plots, colour lists and sequences of two plots on one Axes", "why_tests_cant": "Images with one curve each do not show how colours carry over.", "anchors": ["conjugate/plot.py:PlotDistMixin.color_cycle", "conjugate/plot.py:PlotDistMixin._settle_axis", "conjugate/plot.py:ContinuousPlotDistMixin._create_plot_on_axis", "conjugate/plot.py:DiscretePlotMixin._create_plot_on_axis"]}
{"id": "C74", "title": "Predict, observe, update: the chain rule of probability", "statement": "Predicting each observation from the posterior of those before it gives the whole sequence exactly the probability (density) it has under the prior, the integral of the likelihood; the product does not depend on the order of the observations, and the state reached is the posterior of all of them.", "quantifier": "all priors, all finite sequences of observations; the eleven pairs of a posterior and a predictive function that are correct separately", "why_tests_cant": "Joins two families of functions over sequences of unbounded length by an integral.", "anchors": ["conjugate/models.py:binomial_beta", "conjugate/models.py:binomial_beta_predictive", "conjugate/models.py:bernoulli_beta_predictive", "conjugate/models.py:negative_binomial_beta_predictive", "conjugate/models.py:poisson_gamma_predictive", "conjugate/models.py:gamma_known_shape_predictive", "conjugate/models.py:normal_known_variance_predictive", "conjugate/models.py:normal_known_precision_predictive", "conjugate/models.py:normal_known_mean_predictive", "conjugate/models.py:normal_predictive"]}
{"id": "C75", "title": "Array models and scalar models agree where both apply", "statement": "With diagonal covariances the multivariate normal models with known covariance or precision, and their predictives, are coordinate by coordinate the scalar ones; in one dimension the known-mean model is the scalar one; linear regression on a constant, and its prediction, is the normal model; with two categories the Dirichlet models are the Beta ones.", "quantifier": "all dimensions, priors, samples, known variances, layouts of the vectors and inversion routines", "why_tests_cant": "Relates independent implementations for every dimension and every sample.", "anchors": ["conjugate/models.py:multivariate_normal_known_covariance", "conjugate/models.py:multivariate_normal_known_precision", "conjugate/models.py:multivariate_normal_known_mean", "conjugate/models.py:linear_regression", "conjugate/models.py:linear_regression_predictive", "conjugate/models.py:multinomial_dirichlet", "conjugate/models.py:normal_known_variance"]}
{"id": "C76", "title": "Scalar models of the same situation agree", "statement": "Functions for likelihoods that are special cases or transformations of one another return the same posterior and predictive: geometric and negative binomial with r = 1, Pareto, Weibull, inverse gamma and exponential as gamma likelihoods of transformed data, the slices of the joint gamma model, the two normal priors.", "quantifier": "all priors and data", "why_tests_cant": "Each function is tested alone, if at all.", "anchors": ["conjugate/models.py:geometric_beta", "conjugate/models.py:geometric_beta_predictive", "conjugate/models.py:negative_binomial_beta", "conjugate/models.py:pareto_gamma", "conjugate/models.py:exponential_gamma", "conjugate/models.py:exponential_gamma_predictive", "conjugate/models.py:gamma_known_shape", "conjugate/models.py:weibull_inverse_gamma_known_shape", "conjugate/models.py:inverse_gamma_known_rate", "conjugate/models.py:gamma_known_rate"]}
{"id": "C77", "title": "Nothing is learned on average", "statement": "For each conjugate model with its posterior predictive, the densities of the posteriors weighted by the predicted probabilities of the observations add up (or integrate) to the density of the prior at every parameter, and the posterior means weighted in the same way average to the prior mean.", "quantifier": "all priors, all parameters, all observations that can be made (finite, countable or real)", "why_tests_cant": "The average is over infinitely many observations, each followed by an update.", "anchors": ["conjugate/models.py:binomial_beta", "conjugate/models.py:binomial_beta_predictive", "conjugate/models.py:poisson_gamma", "conjugate/models.py:poisson_gamma_predictive", "conjugate/models.py:negative_binomial_beta_predictive", "conjugate/models.py:gamma_known_shape_predictive", "conjugate/models.py:normal_known_variance_predictive", "conjugate/models.py:normal_known_mean_predictive", "conjugate/models.py:normal_predictive", "conjugate/models.py:multinomial_dirichlet_predictive", "conjugate/models.py:categorical_dirichlet_predictive"]}
{"id": "C78", "title": "On average an observation reduces the variance", "statement": "For each scalar conjugate model with its predictive, the variances of the posteriors, weighted by the predicted probabilities of the observations, add up to the variance of the prior times an explicit factor below one (for the negative binomial: to less than the variance of the prior).", "quantifier": "all priors with a variance, all observations that can be made", "why_tests_cant": "A single observation may increase the variance; only the average over infinitely many observations decreases.", "anchors": ["conjugate/models.py:binomial_beta", "conjugate/models.py:binomial_beta_predictive", "conjugate/models.py:negative_binomial_beta", "conjugate/models.py:poisson_gamma", "conjugate/models.py:gamma_known_shape", "conjugate/models.py:normal_known_variance", "conjugate/models.py:normal_known_mean"]}
{"id": "C79", "title": "Data never make an unknown vector less certain", "statement": "In the multivariate normal models with known covariance or precision, and in linear regression, the posterior covariance is below the prior covariance as a quadratic form; strictly for every direction after an observation (normal), strictly for exactly the directions the design informs about (regression); and below the covariance of the sample average.", "quantifier": "all dimensions, priors, samples, designs, directions, layouts and inversion routines", "why_tests_cant": "Quantifies over directions and dimensions; the failure mode (covariance and precision confused) is invisible for the identity.", "anchors": ["conjugate/models.py:multivariate_normal_known_covariance", "conjugate/models.py:multivariate_normal_known_precision", "conjugate/models.py:linear_regression"]}
{"id": "C80", "title": "Dirichlet distributions: means, samples, tables of them, and learning", "statement": "dist.mean() of a Dirichlet posterior is the mean by integration over the simplex, for flat alphas and row by row for tables, with the shape of alpha, and exists exactly for non-empty one- or two-dimensional arrays of positive numbers; updating a table updates every row with its own data; the posterior mean lies between prior mean and observed fraction, converges to the limit of the fractions with variance going to 0, and averages to the prior mean; samples from a table have shape rows + size + categories and never reuse random numbers.", "quantifier": "all dimensions, tables, alphas, counts, generators and sizes", "why_tests_cant": "Means are integrals over a simplex of arbitrary dimension; the shape claim fails only for a single category.", "anchors": ["conjugate/distributions.py:VectorizedDist", "conjugate/distributions.py:Dirichlet.dist", "conjugate/models.py:multinomial_dirichlet", "conjugate/models.py:categorical_dirichlet", "conjugate/models.py:multinomial_dirichlet_predictive"]}
{"id": "C81", "title": "Vector and matrix models obey the chain rule of probability", "statement": "Predict, observe, update, one observation at a time: the product of the predicted densities is the density of the whole sequence under the prior, in any order, and the state reached is the posterior of all observations; averaged over the predicted observations the posterior density is the prior density. For multivariate normals with known covariance or precision, linear regression (any covariates) and the multivariate normal with unknown covariance.", "quantifier": "all dimensions, priors, sequences, orders, layouts and inversion routines", "why_tests_cant": "Joins posterior and predictive functions over sequences of any length through integrals over vectors and positive definite matrices.", "anchors": ["conjugate/models.py:multivariate_normal_known_covariance", "conjugate/models.py:multivariate_normal_known_covariance_predictive", "conjugate/models.py:multivariate_normal_known_precision", "conjugate/models.py:multivariate_normal_known_precision_predictive", "conjugate/models.py:linear_regression", "conjugate/models.py:linear_regression_predictive", "conjugate/models.py:multivariate_normal", "conjugate/models.py:multivariate_normal_predictive"]}
{"id": "C82", "title": "Vector and matrix distributions have the total mass, means and covariances they should", "statement": "MultivariateNormal, MultivariateStudentT, InverseWishart, NormalInverseGamma with a matrix and NormalInverseWishart have total mass one. The multivariate normal has mean mu and covariance cov; the multivariate t has mean mu (nu > 1) and covariance nu/(nu-2) sigma (nu > 2); the inverse Wishart has mean psi/(nu-n-1) (nu > n+1); the joint distributions have the means of both components. The four predictives have the mean of the prior and the covariance of noise and parameters together. Averaged over the predicted observations, the means of the posteriors (vector, noise variance, covariance matrix) are the means of the prior.", "quantifier": "all dimensions, parameters, layouts, inversion routines; any number of responses", "why_tests_cant": "Integrals over R^n and over the cone of positive definite matrices for every dimension.", "anchors": ["conjugate/distributions.py:MultivariateNormal", "conjugate/distributions.py:MultivariateStudentT", "conjugate/distributions.py:InverseWishart", "conjugate/distributions.py:NormalInverseGamma", "conjugate/distributions.py:NormalInverseWishart", "conjugate/models.py:multivariate_normal_known_covariance_predictive", "conjugate/models.py:multivariate_normal_known_precision_predictive", "conjugate/models.py:linear_regression_predictive", "conjugate/models.py:multivariate_normal_predictive", "conjugate/models.py:linear_regression", "conjugate/models.py:multivariate_normal"]}
{"id": "C83", "title": "Arguments of the wrong shape are rejected", "statement": "linear_regression, multivariate_normal_known_covariance, multivariate_normal_known_precision, multivariate_normal_known_mean and multivariate_normal return a posterior mean stored like the prior mean and matrices of the prior's size, and raise an exception for sizes or layouts that do not fit.", "quantifier": "all sizes, all layouts (flat, column), all element types and inversion routines", "why_tests_cant": "Broadcasting accepts or rejects depending on equalities between sizes; tests use one size and one layout.", "anchors": ["conjugate/models.py:linear_regression", "conjugate/models.py:linear_regression_predictive", "conjugate/models.py:multivariate_normal_known_covariance", "conjugate/models.py:multivariate_normal_known_precision", "conjugate/models.py:multivariate_normal_known_mean", "conjugate/models.py:multivariate_normal"]}
{"id": "C84", "title": "With unlimited data the posterior concentrates and the predictive tends to the sampling distribution", "statement": "As the number of observations grows and their averages converge, the posterior concentrates at the parameter with those averages: the expectation of every bounded function continuous there tends to its value there. The predictive probabilities or densities tend to those of the sampling distribution with that parameter.", "quantifier": "all streams of summaries with converging averages, all proper priors, all test functions, all predicted values; binomial, negative binomial, geometric, Poisson, gamma known shape, inverse gamma known rate, exponential, Weibull, Pareto, uniform, normal with known variance, precision or mean, normal and log normal", "why_tests_cant": "A limit over infinitely many data sets of unbounded size, for every test function.", "anchors": ["conjugate/models.py:binomial_beta", "conjugate/models.py:negative_binomial_beta", "conjugate/models.py:geometric_beta", "conjugate/models.py:geometric_beta_predictive", "conjugate/models.py:poisson_gamma", "conjugate/models.py:gamma_known_shape", "conjugate/models.py:exponential_gamma", "conjugate/models.py:weibull_inverse_gamma_known_shape", "conjugate/models.py:pareto_gamma", "conjugate/models.py:uniform_pareto", "conjugate/models.py:normal_known_variance", "conjugate/models.py:normal_known_precision", "conjugate/models.py:normal_known_mean", "conjugate/models.py:normal", "conjugate/models.py:normal_predictive", "conjugate/models.py:log_normal"]}
{"id": "C85", "title": "The parameter recovery exercises recover the parameter", "statement": "For every set-up of scripts/parameter-recovery.py except the one its author marks TODO: the statistics the posterior is computed from have expectations under the true distribution, and when their averages over ever more data tend to these expectations, the posteriors concentrate at the true value the set-up returns. The quantiles that the exercise plots then tend to the true value. In the hypergeometric set-up the second parameter of the posterior becomes negative instead.", "quantifier": "all priors, all true parameters, all sequences of data sets of unlimited size in the support whose averages converge; all quantile levels strictly between 0 and 1", "why_tests_cant": "The exercise is a plot of at most 2500 random draws for one fixed parameter; the claim is a limit over all data sets.", "anchors": ["scripts/parameter-recovery.py:binomial", "scripts/parameter-recovery.py:geometric", "scripts/parameter-recovery.py:poisson", "scripts/parameter-recovery.py:negative_binomial", "scripts/parameter-recovery.py:hypergeometric", "scripts/parameter-recovery.py:normal_known_variance", "scripts/parameter-recovery.py:normal_known_precision", "scripts/parameter-recovery.py:normal_known_mean", "scripts/parameter-recovery.py:normal_known_mean_alternative", "scripts/parameter-recovery.py:uniform", "scripts/parameter-recovery.py:exponential", "scripts/parameter-recovery.py:inverse_gamma_known_rate", "scripts/parameter-recovery.py:weibull_known_shape", "scripts/parameter-recovery.py:normal_normal_gamma", "scripts/parameter-recovery.py:parameter_recovery"]}
{"id": "C86", "title": "SQL built from the models computes the models", "statement": "When a model function is called with SQL columns, the text rendered for each parameter, read back with SQL's precedence, associativity and comment rule, evaluates in every row to what the Python call returns on the row's values, and it has no value only where the Python call raises. The query of docs/examples/sql.md returns the posterior predictive in every group. In a dialect with integer division this needs columns that are not of an integer type; otherwise the degrees of freedom of that query are one too few for every odd count. With a negative known mean the text of normal_known_mean contains two adjacent minus signs and the rest is a comment.", "quantifier": "all element-wise functions, all terms as inputs, all rows including NULLs, all Python constants, both kinds of division", "why_tests_cant": "The documentation shows three rendered texts and evaluates none; whether dropped parentheses and dialects change a value is a statement about every expression and every row.", "anchors": ["docs/examples/sql.md", "docs/examples/generalized-inputs.md", "conjugate/models.py:normal", "conjugate/models.py:normal_predictive", "conjugate/models.py:normal_known_mean"]}
{"id": "C87", "title": "The programs of the documentation compute what the pages say", "statement": "Thompson sampling as written in docs/examples/thompson.md never fails for any random generator, every step picks the first group with the smallest sampled estimate, the counts share out all samples and the mean of each estimate is the average waiting time of its group with one prior observation of one. The vectorised call of docs/index.md gives the posterior after every observation, equal to updating one by one. The window prediction of docs/examples/limit.md has the mean of the count of that window under the posterior of the rate, but its variance differs by w(1-w)alpha/beta^2, and scripts/post-engagement.py raises because of the keyword beta_prior.", "quantifier": "all numbers of groups, steps, generators, draws; all sample lists and priors; all window lengths; all engagement data", "why_tests_cant": "The pages are run once with one seed and their pictures are not compared with anything; the claims range over all histories of random draws, all data and all window lengths.", "anchors": ["docs/examples/thompson.md", "docs/index.md", "docs/examples/limit.md", "scripts/post-engagement.py", "conjugate/models.py:exponential_gamma", "conjugate/models.py:binomial_beta", "conjugate/models.py:poisson_gamma_predictive"]}
{"id": "C88", "title": "Evidence moves the posterior in the direction it points", "statement": "For each one-parameter model, data that speak for a larger parameter give a posterior under which every statement 'the parameter is at most t' is strictly less probable: more successes or fewer failures for the success probability; longer waits for a smaller one; more events or fewer intervals for a rate; larger observations for a smaller gamma rate or Pareto shape, a larger Weibull scale, a larger normal mean; data further from the known mean for a larger variance, with either prior family. For exponential_gamma it goes the wrong way: longer waits raise the rate, while the true posterior falls.", "quantifier": "all priors with positive parameters, all pairs of data summaries in the stated order, all t", "why_tests_cant": "Tests compare a few parameters; that a whole distribution moves up is a statement about every threshold and every pair of data sets.", "anchors": ["conjugate/models.py:binomial_beta", "conjugate/models.py:negative_binomial_beta", "conjugate/models.py:geometric_beta", "conjugate/models.py:poisson_gamma", "conjugate/models.py:exponential_gamma", "conjugate/models.py:gamma_known_shape", "conjugate/models.py:inverse_gamma_known_rate", "conjugate/models.py:pareto_gamma", "conjugate/models.py:weibull_inverse_gamma_known_shape", "conjugate/models.py:normal_known_variance", "conjugate/models.py:normal_known_precision", "conjugate/models.py:normal_known_mean"]}
{"id": "C89", "title": "The regression band of the documentation widens away from the data", "statement": "docs/examples/linear-regression.md says that the predictive distribution begins to widen as we move away from the data. For the program of the page (an intercept and one regressor), with any prior: the predicted locations lie on a straight line, and the squared scale of a prediction is a parabola in the new regressor with a strictly positive leading coefficient and its lowest point at (sum of the old regressors + P01) / (N + P00), where P is the prior precision. So of two predictions the one further from that centre is strictly wider; with the prior of the page the centre is the sum of the regressors over N + 1.", "quantifier": "all numbers of observations and predictions, all regressors and responses, all priors with a positive definite delta_inverse, all correct inverse routines", "why_tests_cant": "The page shows one picture for one simulated data set.", "anchors": ["docs/examples/linear-regression.md", "conjugate/models.py:linear_regression", "conjugate/models.py:linear_regression_predictive"]}
{"id": "C90", "title": "The predicted maximum of the bootstrap example", "statement": "docs/examples/bootstrap.md predicts the maximum of n_new new counts by drawing them independently from the predictive distribution of one count. For one new count this is the posterior predictive; for two or more it is not: whatever the data, the prior and k, the probability that the maximum is at most k comes out strictly smaller than its posterior predictive probability, so the page overstates the maximum.", "quantifier": "all data, all gamma priors, all numbers of new counts, all k", "why_tests_cant": "The difference between sharing a rate and not sharing it is a strict inequality between two integrals; simulation sees only noise for one prior and data set.", "anchors": ["docs/examples/bootstrap.md", "conjugate/models.py:poisson_gamma", "conjugate/models.py:poisson_gamma_predictive"]}
{"id": "C91", "title": "Closed predictive distributions where the library offers none", "statement": "docs/examples/unsupported-distributions.md samples the predictive distribution of pareto_gamma because no distribution of the library has it. Integrating the Pareto density over the posterior gives a closed form from the library's own distributions: ln(x / x_m) is Lomax(alpha_post, lam = beta_post). Likewise for weibull_inverse_gamma_known_shape (x^shape is Lomax), inverse_gamma_known_rate (1/x is CompoundGamma) and uniform_pareto (flat up to x_m, Pareto tail above).", "quantifier": "all priors with positive parameters, all data at or above x_m, all outcomes x", "why_tests_cant": "Sampling can only suggest a closed form; the integral over the posterior is needed at every x.", "anchors": ["docs/examples/unsupported-distributions.md", "conjugate/models.py:pareto_gamma", "conjugate/models.py:weibull_inverse_gamma_known_shape", "conjugate/models.py:inverse_gamma_known_rate", "conjugate/models.py:uniform_pareto"]}
{"id": "C92", "title": "Sizes of samples", "statement": "docs/examples/sampling-distributions.md: with vector parameters rvs(n) is a broadcast error, and prepending n to the joint shape of the parameters is the fix. The fix works for any parameters and any n. The error occurs exactly when the joint shape, leading dimensions of size one apart, is neither () nor (n,); so a vector of n parameters silently gives one sample of each instead of n.", "quantifier": "all parameter shapes with a joint shape, all n", "why_tests_cant": "The page tries one shape.", "anchors": ["docs/examples/sampling-distributions.md", "conjugate/distributions.py:Exponential", "conjugate/distributions.py:Normal"]}
{"id": "C93", "title": "Rounding keeps the direction of the evidence", "statement": "In floating point a posterior parameter may be inaccurate, but it never moves against the evidence: wherever the exact parameter never falls (never rises) as an argument grows, neither does the computed one, without tolerance. The posterior mean of a normal mean never falls when the data or the prior mean grow. More evidence always changes the parameters.", "quantifier": "all functions that add, subtract, multiply or take maxima, all of their arguments, all finite nonnegative floats with finite results; all floats for the normal mean", "why_tests_cant": "Pairs of neighbouring floats are too many to try.", "anchors": ["conjugate/models.py:get_binomial_beta_posterior_params", "conjugate/models.py:normal_known_variance", "conjugate/models.py:normal_known_precision"]}
{"id": "C94", "title": "The mean alone, and the classical t laws", "statement": "Under a NormalInverseGamma or NormalGamma law the mean alone has the Student t law with 2*alpha degrees of freedom, location mu and scale sqrt(beta/(nu*alpha)); the variance alone is InverseGamma(alpha, beta) and the precision alone is Gamma(alpha, beta). The prior alpha = -1/2, beta = 0, nu = 0 is accepted by normal(); for two or more unequal data the result is the Bayesian posterior of the flat prior 1/v, its mean has the classical t law with n-1 degrees of freedom around the sample average with scale s/sqrt(n), and normal_predictive returns the classical prediction law with scale s*sqrt(1+1/n).", "quantifier": "all positive parameters; all prior locations, all data sets with at least two elements and positive sample variance, both prior families", "why_tests_cant": "Densities and integrals over unbounded domains; all data sets.", "anchors": ["conjugate/models.py:normal", "conjugate/models.py:normal_predictive", "conjugate/distributions.py:NormalInverseGamma", "conjugate/distributions.py:NormalGamma"]}
{"id": "C95", "title": "Operators between numbers, arrays and distributions", "statement": "Multiplying a distribution by a number gives the same result on either side, the scaled distribution of C39/C40; by an array of numbers it gives the distributions scaled by each element, the same on either side; parameters of results are numbers or arrays of numbers. sum() of Poisson distributions is the Poisson distribution of the sum of independent counts. Products of distributions and sums of anything but Poissons are errors.", "quantifier": "all parameters, all factors, all arrays of factors, all lists of Poissons, all classes of distributions", "why_tests_cant": "All pairs of operands, arrays of any length and lists of any length; the tests multiply two numbers by one instance.", "anchors": ["conjugate/distributions.py:Poisson.__add__", "conjugate/distributions.py:Poisson.__mul__", "conjugate/distributions.py:Gamma.__mul__", "conjugate/distributions.py:Exponential.__mul__", "conjugate/distributions.py:Normal.__mul__", "conjugate/distributions.py:NegativeBinomial.__mul__", "docs/examples/scaling-distributions.md"]}
{"id": "C96", "title": "Quantiles and credible intervals", "statement": "The dist of every continuous distribution with valid parameters has exactly one quantile for every probability strictly between 0 and 1 (so ppf is well defined and inverts the cdf) and exactly one central credible interval of every level. For Normal and Student t it is the location plus and minus a multiple of the scale. Data always narrow the interval of a normal mean with known variance; more successes or counts move every quantile up. Beta(1,1), Exponential, Uniform, Pareto, Lomax and Weibull have the textbook quantile formulas (of the scale and width the code passes).", "quantifier": "all valid parameters, all probabilities, all levels, all data", "why_tests_cant": "Uniqueness and monotonicity over a continuum of probabilities and parameters; the docs print two quantiles of Beta(1,1).", "anchors": ["conjugate/distributions.py:Beta.dist", "conjugate/distributions.py:Normal.dist", "conjugate/distributions.py:StudentT.dist", "docs/examples/scipy-connection.md", "conjugate/models.py:normal_known_variance", "conjugate/models.py:binomial_beta", "conjugate/models.py:poisson_gamma"]}
{"id": "C97", "title": "Integers of fixed width", "statement": "With Python ints and numpy integers as data and parameters every element-wise function returns the numbers of its formula (and raises exactly where the formula is undefined), whatever the sizes and types of the integers.", "quantifier": "all element-wise functions, all mixtures of Python ints, floats and numpy integers of the eight types, all values", "why_tests_cant": "Overflow depends on values, types and the order of operations; the tests use small Python ints and arrays of small int64.", "anchors": ["conjugate/_typing.py:NUMERIC", "conjugate/models.py:poisson_gamma", "conjugate/models.py:binomial_beta", "conjugate/models.py:normal_known_mean", "conjugate/models.py:negative_binomial_beta", "README.md"]}
{"id": "C98", "title": "Updating batch by batch", "statement": "The loop of docs/examples/bayesian-update.md (posterior = model(data, prior=prior); prior = posterior) never raises for any posterior function of models.py, any number of batches and any prior of the right class; each posterior has the parameters computed from those before it and is accepted as the next prior; the two programs of the page plot, in pass k, the posterior of all the data so far, with the number of those data as its label.", "quantifier": "all posterior functions, all numeric types, all finite lists of batches, all real data (non-empty batches for the normal program)", "why_tests_cant": "No test feeds a posterior back as a prior; the claim is an invariant over an unbounded number of passes and of data.", "anchors": ["docs/examples/bayesian-update.md", "conjugate/models.py:normal", "conjugate/models.py:binomial_beta", "conjugate/models.py:validate_type"]}
{"id": "C99", "title": "Constructors and equality of the distribution classes", "statement": "Every distribution class accepts its parameters positionally in the order of its docstring, by keyword, or mixed, with the documented defaults, and rejects every other call with a TypeError (a ValueError for NormalInverseGamma unless exactly one of delta_inverse and nu is given). Two instances compare equal exactly if they are of one class and have the same parameters, for number and array parameters.", "quantifier": "all 38 classes, all positional and keyword arguments, all parameter values", "why_tests_cant": "The tests construct a few instances by keyword and compare a few scalar ones; the claim covers every split between positional and keyword arguments, and comparison of arrays.", "anchors": ["conjugate/distributions.py", "conjugate/slice.py", "tests/test_distributions.py:188"]}
{"id": "C100", "title": "Missing values are not silently lost", "statement": "A NaN (or a NULL of a nullable column) in an argument or a parameter of the prior makes NaN (NULL) exactly those parameters of the result into whose formula it enters, and leaves the others exactly as they were; no argument is ignored, so a missing value is always visible in the result.", "quantifier": "all element-wise functions, constructors and operators, all arguments, all binary64 values, all library functions that return NaN for NaN", "why_tests_cant": "No test passes a NaN; the claim is about every argument of every function and every value of the other arguments.", "anchors": ["conjugate/models.py", "conjugate/distributions.py", "docs/examples/generalized-inputs.md"]}
{"id": "C101", "title": "Scaling distributions as documented", "statement": "docs/examples/scaling-distributions.md: multiplying a normal distribution by k gives the distribution of k times the variable (its variance is multiplied by k squared); multiplying or adding Poisson distributions gives the distribution of the number of events in the longer interval.", "quantifier": "all parameters, all positive factors", "why_tests_cant": "A statement about laws for every factor; the page shows one picture.", "anchors": ["docs/examples/scaling-distributions.md", "conjugate/distributions.py:Normal.__mul__", "conjugate/distributions.py:Gamma.__mul__"]}
{"id": "C102", "title": "Vector models settle on the truth with unlimited data", "statement": "Along every stream of data whose averages converge, the posteriors of linear_regression and of the four multivariate normal models settle on the limits: posterior means tend to the limiting mean vector, covariance matrix, coefficients and noise variance; posterior covariances tend to zero; and the density of each posterior predictive tends, at every point, to the normal density with those parameters \u2014 whatever the proper prior.", "quantifier": "all dimensions, all proper priors, all streams with converging averages, all points", "why_tests_cant": "A limit over data sets of unbounded size, for every stream and every prior.", "anchors": ["conjugate/models.py:linear_regression", "conjugate/models.py:linear_regression_predictive", "conjugate/models.py:multivariate_normal", "conjugate/models.py:multivariate_normal_predictive", "conjugate/models.py:multivariate_normal_known_mean", "conjugate/models.py:multivariate_normal_known_covariance", "conjugate/models.py:multivariate_normal_known_precision"]}
{"id": "C103", "title": "Regret of learning the parameter", "statement": "Predicting each observation with the predictive and then updating, from the uninformative prior, gives every sequence of observations at least a known fraction of the probability it has under the best fixed parameter chosen in hindsight: 1/(N+1) for N Bernoulli or binomial trials, 1/C(N+n, n) for N trials over n+1 categories, and for normal observations of known variance with any proper prior 1/(sqrt((var + N s^2)/var) exp(N (mean - mu)^2 / (2 (var + N s^2)))). For Poisson observations and for gamma observations of known shape, with any proper gamma prior, the best possible factor is Gamma(alpha)/Gamma(alpha+a) (beta+b)^(alpha+a)/beta^alpha (a/b)^a exp(-a), where a and b are what the data add to the parameters; it is at most (1+b/beta)^alpha (1+beta/b)^a when alpha is at least one and a is an integer. With any proper beta prior, for binomial and negative binomial counts the best possible factor is B(alpha, beta)/B(alpha+a, beta+b) (a/(a+b))^a (b/(a+b))^b; for normal observations of known mean the gamma factor applies to the inverse gamma law of the variance, with a half the number of observations and b half the sum of their squared distances from the mean. For normal observations of unknown mean and variance that are not all equal, with any proper normal inverse gamma or normal gamma prior, the best possible factor is sqrt((nu+n)/nu) Gamma(alpha)/Gamma(alpha+n/2) b'^(alpha+n/2)/beta^alpha (n/S)^(n/2) exp(-n/2), where S is the sum of squared distances from the sample mean m and b' = beta + S/2 + nu n (m-mu)^2/(2(nu+n)). At every length some Bernoulli, categorical or normal sequence attains the bound.", "quantifier": "all sequences of observations of all lengths, all parameters (ends of the range included), all numbers of categories, all proper normal, gamma, beta, inverse gamma, scaled inverse chi squared, normal inverse gamma and normal gamma priors", "why_tests_cant": "A worst-case bound over every data set and every parameter, stated for the whole loop rather than one call.", "anchors": ["conjugate/models.py:binomial_beta", "conjugate/models.py:binomial_beta_predictive", "conjugate/models.py:bernoulli_beta", "conjugate/models.py:bernoulli_beta_predictive", "conjugate/models.py:multinomial_dirichlet", "conjugate/models.py:multinomial_dirichlet_predictive", "conjugate/models.py:categorical_dirichlet", "conjugate/models.py:categorical_dirichlet_predictive", "conjugate/models.py:normal_known_variance", "conjugate/models.py:normal_known_variance_predictive", "conjugate/models.py:poisson_gamma", "conjugate/models.py:poisson_gamma_predictive", "conjugate/models.py:gamma_known_shape", "conjugate/models.py:gamma_known_shape_predictive", "conjugate/models.py:negative_binomial_beta", "conjugate/models.py:negative_binomial_beta_predictive", "conjugate/models.py:normal_known_mean", "conjugate/models.py:normal_known_mean_predictive", "conjugate/models.py:normal", "conjugate/models.py:normal_predictive"]}
{"id": "C104", "title": "The figures of the documentation", "statement": "The plotting programs of docs/examples/plotting.md, vectorized-inputs.md, indexing.md and (left Axes) binomial.md draw what their text says, for all inputs: one curve per distribution with its own label and the next colour of the Axes; prior j and posterior j in the same colour, the posterior being that of the data; after indexing, curve j is the distribution at the j-th position, negative positions counted from the end.", "quantifier": "all bounds, labels, distributions, data, parameter arrays, position lists, colours, and Axes states", "why_tests_cant": "The example-plot tests compare one picture each; the claim is about every input of the programs and about state (colour cycle, bounds) shared between plots.", "anchors": ["docs/examples/plotting.md", "docs/examples/vectorized-inputs.md", "docs/examples/indexing.md", "docs/examples/binomial.md", "conjugate/plot.py:ContinuousPlotDistMixin", "conjugate/slice.py:SliceMixin"]}
{"id": "C105", "title": "Indexing grids of distributions with tuples", "statement": "dist[key] with a tuple of integers, slices, None and Ellipsis is the distribution whose member i is the member of the original that the key denotes, for grids of any number of axes; the posterior of indexed inputs is the indexed posterior, for every element-wise model function; a key numpy does not accept leaves the distribution as it is. False when the parameters merely broadcast to the shape of the grid: dist[:, 0] then pairs the wrong parameters.", "quantifier": "all shapes, all arrays of parameters, all tuples of integers, slices, None and Ellipsis, all element-wise functions", "why_tests_cant": "The tests index vectors with an integer and a slice; keys, shapes and number of axes are unbounded, and a wrong pairing raises no error.", "anchors": ["conjugate/slice.py:SliceMixin", "docs/examples/indexing.md"]}
{"id": "C106", "title": "Numpy booleans as data", "statement": "A posterior function called with numpy booleans as data (the outcome of a comparison, one by one or as an array) and a prior of numbers gives the posterior for 1 and 0. False for binomial_beta with booleans for both n and x, which raises a TypeError although the posterior exists, and for priors made of booleans, where True + True is True and the posterior is silently wrong.", "quantifier": "all element-wise functions, all patterns of booleans among the arguments, all values of the other numbers (Python or numpy, integers below the limits of C97)", "why_tests_cant": "The tests pass Python ints and floats; the result depends on the types at each of up to seven places.", "anchors": ["conjugate/_typing.py:NUMERIC", "conjugate/models.py:binomial_beta", "conjugate/models.py:bernoulli_beta", "conjugate/models.py:poisson_gamma"]}
{"id": "C107", "title": "The cost of learning the parameter vanishes", "statement": "Predicting each observation with the predictive and then updating loses nothing per unit of data in the long run: for every rate eps > 0 there is a size from which on every sequence of observations gets at least exp(-eps * size) of the probability it has under the best fixed parameter chosen in hindsight. This holds with any proper prior for binomial counts (size = trials), negative binomial counts (size = observations plus counts), Poisson counts up to any bound, gamma observations of known shape (exponential for shape one) between two positive bounds, normal observations of known variance within any distance of the prior mean, normal observations of known mean at distances between two positive bounds from it, and normal observations of unknown mean and variance within any distance of a point with a sample variance above some positive bound; and with the uniform prior for counts over n+1 categories and single categories. Without a bound on the normal observations of known variance it fails for every proper prior.", "quantifier": "all rates, all sequences of observations beyond a size that depends only on the rate, the prior and the bounds; all parameters; all proper priors as stated", "why_tests_cant": "A statement about the limit of a worst case over every data set and every parameter.", "anchors": ["conjugate/models.py:binomial_beta", "conjugate/models.py:binomial_beta_predictive", "conjugate/models.py:multinomial_dirichlet", "conjugate/models.py:multinomial_dirichlet_predictive", "conjugate/models.py:categorical_dirichlet", "conjugate/models.py:categorical_dirichlet_predictive", "conjugate/models.py:poisson_gamma", "conjugate/models.py:poisson_gamma_predictive", "conjugate/models.py:gamma_known_shape", "conjugate/models.py:gamma_known_shape_predictive", "conjugate/models.py:normal_known_variance", "conjugate/models.py:normal_known_variance_predictive", "conjugate/models.py:negative_binomial_beta", "conjugate/models.py:negative_binomial_beta_predictive", "conjugate/models.py:normal_known_mean", "conjugate/models.py:normal_known_mean_predictive", "conjugate/models.py:normal", "conjugate/models.py:normal_predictive"]}
{"id": "C108", "title": "Asking for the variance changes nothing else", "statement": "For NormalInverseGamma, NormalGamma, NormalInverseWishart and NormalWishart, sample_mean (and sample_beta where it exists) called with return_variance=True returns the same means, raises the same exceptions and leaves every generator in the same state as the call without it; the variance that comes back is the one sample_variance would have returned in the same state, and an exception of sample_variance is the exception of the call. sample_mean and sample_beta of NormalInverseGamma and of NormalGamma are the same call. np.stack, which puts the samples together, succeeds exactly on a non-empty list of arrays of one shape, whose entries it keeps.", "quantifier": "all parameters (scalars and arrays of any shape, valid or not), sizes, seeds, generators and number types; any scipy", "why_tests_cant": "Two calls with the same seed are compared, for every seed, generator and size, including the calls that raise.", "anchors": ["conjugate/distributions.py:NormalInverseGamma", "conjugate/distributions.py:NormalGamma", "conjugate/distributions.py:NormalInverseWishart", "conjugate/distributions.py:NormalWishart"]}
{"id": "C109", "title": "The text of a distribution can be read back", "statement": "repr of a distribution of any class of distributions.py, with fields that are numbers, flags, lists of numbers or None, is a call expression: read as Python reads it, it names the class of the distribution and keywords that construct a distribution with the same fields, equal to the first. Two distributions with the same text have the same class and the same fields, also where == does not distinguish True from 1.", "quantifier": "all 38 classes, all fields of the stated kinds, any text of numbers that reads back as the number", "why_tests_cant": "Every class and every value of the fields is covered, including lists, whose commas have to be told from those between the fields.", "anchors": ["conjugate/distributions.py:Beta", "conjugate/distributions.py:Geometric", "conjugate/distributions.py:NormalInverseGamma", "conjugate/distributions.py:Dirichlet"]}
