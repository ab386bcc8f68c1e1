# plans of later properties: plan['Cnn'] = ...
plan['C73'] = "`RakeModel` follows the index of the cells (lists of values with the rows that have them), the walk over all combinations of values, the notes of the first pass and the rounds. `RakeProofs` shows that all that equals one list function (`gstep`: scale the cells with a key); `RakeProps` proves the properties of it by invariants over steps, passes and rounds. The witnesses `_refuted` show the deviations."
plan['C74'] = "`RakeOptProps`: by the log-linear form of C73 the logarithm of the ratio is a sum of functions of keys, so that its total against any weights depends on their margins only (`key_sum`); then Gibbs' inequality term by term."
plan['C75'] = "`OlsModel`: shuffle, prep, normal equations by apop_dot, inversion or solver (parameters), the pages; `OlsProofs` does the algebra (normal equations, decomposition of the sum of squares) with sums over indices, `OlsProps` states minimality, uniqueness and the reports. The inversion is assumed to be right on X'WX (`inverts`)."
plan['C76'] = "`OlsLikeProps`: the fold over observations is the sum of log densities; the derivative is taken with `derivable_pt_lim` term by term; the t distribution is any symmetric monotone function."
plan['C77'] = "`OlsModel` prep_z and estimate_iv; `OlsIvProps` uses the same algebra with instruments in place of X."
plan['C78'] = "`TestModel` t_test, paired_t_test; `TestProps`, with GSL's distribution function any symmetric strictly increasing function."
plan['C79'] = "`TestModel` chi_test; `TestTableProps` turns the loops into sums over indices, then algebra."
plan['C80'] = "`TestModel` anova_one_way, anova_two_way, over the groups the queries make (var_pop by `DbModel`, C69); `TestTableProps`."
plan['C81'] = "`TestModel` f_test with apop_dot (C33) and an inversion assumed right; `TestFProps` shows the quadratic form to be a sum of squares. The contrast set is part of the result, so that the next call sees what was freed."
plan['C82'] = "`TestModel` apop_test; `TestLookupProps` by cases on the name's family."
plan['C83'] = "`ConsModel`: projection, translation of the pseudopoint, choice of the closest candidate with the scratch kept between calls. `ConsProps`: a point is nearest if the step to it makes no obtuse angle with any feasible step (`nearest_angle`); the choice is right if all candidates are feasible and one is nearest (`several`); then cases for two surfaces, and a loop invariant for the default. Histories are the inductive `reached`."
plan['C84'] = "`CdfModel`: worlds of models, draw matrices and counters. `CdfProps`: the invariant that a counter is at least the number of live groups that share it, kept by every call; then induction over histories (`reached`, `later`)."
plan['C85'] = "`LogitModel`; `LogitProps`: the subtract-the-maximum formula equals the logarithm of the probability for any number subtracted; the choice by a loop invariant; concavity by convexity of the log of a sum of exponentials."
plan['C86'] = "`LogitModel` (section probit, over a distribution function and its density); `ProbitProps` differentiates the likelihood term by term."
plan['C87'] = "`DispModel`: the hash macros in 64-bit arithmetic over the registry of C25; `DispProps`: the registry gives the first match (C25), and the hashes are told apart by arithmetic on the range of addresses."
plan['C88'] = "`SearchModel`: the shell around evaluations, the three loops with the minimiser as an arbitrary sequence of events, the info rows. `SearchSpec` says where the objective is evaluated and why a loop ends; `SearchProps` by induction over iterations."
plan['C89'] = "`SearchModel`; `SearchLikeProps`: an invariant over every sequence of evaluations (path, running maximum, withdrawal of the info), carried through the loop."
plan['C90'] = "`RestartModel`: estimation as an arbitrary function that adds rows to the (copied) info page; `RestartProps`: lookups in an info page that has been added to (C13), induction over histories of restarts."
plan['C91'] = "`DiffModel`: GSL's five-point rule on a function that changes the parameters, the loop over the dimensions; `DiffProps`: the rule as four difference quotients (limit) and by field arithmetic (polynomials)."
plan['C92'] = "`DiffModel`; `HessProps`: the accumulated matrix in closed form by induction over the rows, with an invariant on the shared parameters; quadratic forms by sums."
plan['C93'] = "`DiffModel` (annealing_step, annealing_distance); `AnnealProps`: sums over the cut points."
plan['C94'] = "`AnnealModel`: gsl_siman_solve over copies of the infostruct that share the model; `AnnealProps`: one invariant over the moves (best so far, best_ll, path, constraint), termination by the powers of 1/mu_t."
plan['C95'] = "`CycleModel` (dim_cycle) with arbitrary one-dimensional searches; `CycleProps`: one cycle is a fold; ascent by induction over the dimensions; termination by the Archimedean property."
plan['C96'] = "`CycleModel` (fix_table, fix_start): the table row by row in memory; `CycleProps`: for any number of free parameters."
plan['C97'] = "`MixModel`: what copies share and what they do not, as two records; `MixProps`: layout by induction over the components; memory blocks for the frees."
plan['C98'] = "`MixModel`; `MixProps`: the greatest element specified on its own; the shares by algebra of exponentials and an exchange of sums."
plan['C99'] = "`MixModel` on top of `ConsModel` (C83); `MixProps`."
plan['C100'] = "`MixModel` on top of `PmfModel` (C23); `MixDrawProps`."
plan['C101'] = "`KlModel`: the loop of apop_kl_divergence with the macro's break; `KlProps`: Gibbs' inequality by ln x >= 1 - 1/x, summed by induction."
plan['C102'] = "`KdeModel`: the kernel's parameters as a state threaded through the loops; `KdeProps`: the logarithm of the sum by factoring out the greatest term, for -inf terms too."
plan['C103'] = "`KdeModel`; `KdeProps`: weighted means; the integral by Coquelicot's linearity."
plan['C104'] = "`KdeModel`: histories of calls and interleavings of thread steps; `KdeShareProps`: the states met are each a setting of the first."
plan['C105'] = "`KdeModel` on top of `PmfModel` (C23); `KdeShareProps`."
plan['C106'] = "`KdeModel`: memory blocks and owners; `KdeShareProps`."
plan['C107'] = "`MultiModel`: the parameter vector turned into probabilities and back, GSL's densities by their formulas; `MultiProps`: sums of ln against the factorial formula, by induction on bins and rows."
plan['C108'] = "`MultiModel`; `MultiEstProps`: Gibbs' inequality for the optimum, the quadratic form as a variance."
plan['C109'] = "`MultiModel`: the law of the loop of conditional binomials; `MultiDrawProps`: the product telescopes, by induction on the bins; rows of a block; steps of threads."
plan['C110'] = "`TextDbModel`: the fields' conversion, binding to a prepared statement, the SQL texts built, and a reader of such texts; `TextDbProps`: what the reader gives is what was meant, by induction on fields and names."
plan['C111'] = "`TextDbModel`: the database's objects as a list; `TabExistsProps`."
plan['C112'] = "OutModel: p_fn, apop_data_print_core with printf's conversions spelled out (digits, padding, six decimals by any nearest rounding). OutProps: each printed line is a written line of ParseSpec, so C29 gives what the reader makes of it; numerals in OutSpec. NaN and infinities are not modelled."
plan['C113'] = "OutPageModel: apop_prep_output and the recursion over pages in apop_data_print; streams, files and tables as contents, with any split of a page between bytes written at once and at closing. OutPageProps: induction over the pages; the deviations on two small pages."
plan['C114'] = "ImputeModel on top of fix_params (TransModel): the swapped model, the shell an optimiser calls, apop_ml_impute, apop_predict; a search is any list of points. ImputeProps: an invariant over the list, using C43."
plan['C115'] = "ArmsModel: all of apop_arms.c but display and the settings' copy and free; the linked list of points is a list. ArmsSpec: concavity, the broken line, reachable states. ArmsProofs: an invariant (alternating points, right intersections, order) kept by initial, meet, update, cumulate and test; chords of a concave function."
plan['C116'] = "The integral as an antiderivative of the piecewise exponential (derivable_pt_lim), inverted exactly; convexity of exp for the nearly flat pieces; induction over rounds and draws; a Lipschitz bound on the heights for the absence of underflow."
plan['C117'] = "RankModel: zipf_log_likelihood, a turn of zipf_rng's loop and the loop over a tape. RankProofs: interval length times acceptance is a fixed multiple of n^-a; acceptance at most one by convexity of exp. zeta is a parameter, tied to its series."
plan['C118'] = "RankModel: yule_rng. RankProofs2: an antiderivative of exp(-s)(1-exp(-s/c))^k by recursion on k (Coquelicot's RInt), its value against the gamma functions of the likelihood, and the tail going to zero."
plan['C119'] = "CtModel: the dispatch between a model's methods and ct_ll, with doubles that may be infinite or NaN. CtProps: change of variables under Coquelicot's integral; the Lognormal model (LikeModel) by a sum of logs."
plan['C120'] = "CtModel: blocks of parameters and the base models that point to them. CtProps: an invariant over every history of estimations."
plan['C121'] = "DirModel: the loops over rows and the score; the log gamma and digamma functions are parameters, tied by one being the other's derivative. DirProps: sums over rows; derivatives by sum rules."
plan['C122'] = "MvnModel: the quadratic form as dsymv reads it, the triangular map of the draws; LU and Cholesky decompositions are parameters, specified by what they satisfy. MvnProps: triangular matrices are injective; the quadratic form of L z is z'z."
plan['C123'] = "TModel: the three numbers and the named elements added to the parameters there are (DataModel's add_named_elmt); the library's t density, cdf and draws are parameters. TProps: sums of squares from StatsProofs; chain rule."
plan['C124'] = "PcaModel: centring, the matrix of sums of products, the loop over the dimensions; the singular value decomposition is a parameter, specified by what it satisfies. PcaProps: its vectors are eigenvectors because the matrix is positive semidefinite; expansion in an orthonormal basis."
plan['C125'] = "PmodModel: the sizes, apop_data_pack (PackModel) of parameters and estimates, reading one element; the bootstrap's covariances and the estimates are inputs. PmodProps: pack lists all the numbers (C19); arithmetic of sizes."
plan['C126'] = "NormModel: the both-parts variance, the covariance page, the copy with its logs, predictions, cdfs and draws; the library's distribution functions are parameters, specified by a Phi whose derivative is the standard density. NormProps: the lognormal likelihood is the Normal's of the logs (C119); C58's maxima; chain rule."
plan['C127'] = "GamModel: means and variances of the parts and their weights, the estimates, the cdfs at the element that apop_data_get gives, the draws; the library's distribution functions are parameters, specified by their densities. GamProps: StatsProps for the moments, C61 for the Beta's, derivatives by Coquelicot; the likelihoods are those of LikeModel."
plan['C128'] = "PsdModel, over any ordered field (mathcomp): the loop over the leading minors; the repair as a relation, with any orthonormal eigenvectors and any number of turns. PsdProps: Sylvester's criterion by completing the square, one row and column at a time; the rebuilt matrix is a sum of squares with positive weights."
plan['C126'] += " NormMeanProps: mean and variance as integrals over the line, by the Gaussian integral (GaussProofs) and antiderivatives."
plan['C129'] = "MvgModel: the test (with the int quotient and the conversion to int), the loops; Gamma and its logarithm are parameters, specified where they are used. MvgProps: Gamma_n is the recursion in the dimension; induction on it; parity of the quotient."
plan['C130'] = "EntModel: the function for the Normal, and the mean over the draws. EntProps: finite laws and their expected value over n draws (induction on n); for the Normal the integral over the line, with the Gaussian integral proved in GaussProofs (derivative under the integral, by Coquelicot)."
plan['C131'] = "The likelihoods of LikeModel, at one number. MassProps: improper integrals by antiderivatives and their limits, the exponential series shifted once and twice (Coquelicot)."
