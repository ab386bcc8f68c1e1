# Formal model of b-k/apophenia in Rocq (Coq 8.16.1)

## Layout

* `rocq/theories/Base.v` — generic list/option vocabulary (no code modelled).
* `rocq/theories/*Model.v` — the model: total Gallina functions, each with a comment citing the file and lines of
  /repo it models and every simplification.
* `rocq/theories/*Spec.v` — what the properties say, independently of the model's helpers (where a statement needs
  more vocabulary than the API's).
* `rocq/theories/*Proofs.v` — lemmas.
* `rocq/theories/*Props*.v` — the property theorems `Cnn_...`, each followed by `Print Assumptions`, with non-vacuity
  `Example`s beside, and the `Cnn_..._refuted` theorems (witnesses).
* `properties.jsonl` (made by `tools/props.py`), `MANIFEST.json` (made by `tools/manifest.py`).
* `seeded/LOG.jsonl` — wrong-program experiments.
* This file is made by `tools/design.py` from `tools/design_head.md`, the plans in that script and
  `tools/assumptions.md` (made by `tools/assumptions.py` from a build).

## Modelling conventions

* A C function that mutates through a pointer becomes a function returning the new value. Where aliasing or the heap
  matters (text cells, realloc, views, the C-string and file buffers of the parser, vtables, the memo of the harmonic
  numbers) the memory is modelled explicitly.
* Undefined behaviour (out-of-bounds access, reading uninitialised memory, NULL dereference, a text used as a format)
  is a distinct outcome (`UB`), never a default value. A loop whose termination is not evident runs on explicit fuel
  with a distinct `OutOfFuel` outcome. Uninitialised memory that is only moved about is an arbitrary value `g`
  (theorems are for every `g`).
* `double` is an abstract type wherever the code only moves values about; where it computes, arithmetic is exact over
  the reals, NaN and infinities being `None` (or a separate constructor where the code tells them apart). Rounding is
  NOT modelled. The recurrences of GSL's statistics functions that the code calls are modelled as GSL computes them.
  `malloc` never fails. Integers are unbounded except where a wrap-around matters, which is written out.
* Special functions (lngamma, psi, lnfact), random generators (a tape of draws), regular-expression matching, atof and
  printf of numbers, and SQLite are parameters of the model, with the facts used about them as hypotheses of the
  theorems (and instances in the non-vacuity examples).
* Threads: OpenMP loops are interleavings of atomic steps, or any partition of the iterations among threads.
* If the code violates the documented property, the property's statement in `properties.jsonl` is restricted to the
  exact domain on which the code keeps it (proved), and the deviations are `..._refuted` theorems: a concrete witness,
  computed by the model. No theorem is left as `_partial`.

## Plan per property

For each property: what is modelled, and how it is proved.

* **C01** Name lookup is sound and complete. Name lists with their hash arrays (cells uninitialised until written); search by hash with wrap-around mod 2^64; first-match specification, by induction on the list. (NamesProps.v)
* **C02** Name add and stack append and touch nothing else. As C01: the add and stack functions as list appends; frame statement for the other lists. (NamesProps.v)
* **C03** Lookup by name survives structural edits. Lookup after each structural edit (rm, transpose, stack, sort...): the hash arrays follow the names or not; composed from the models of those edits. (DataProps.v)
* **C04** apop_data_copy duplicates all data. Pages with optional vector/matrix/text/weights, names, error, chain of pages (with the self-link); copy by structural recursion on the chain. (DataProps.v)
* **C05** apop_data_memcpy checks shapes before writing. As C04: memcpy with its early returns; frame statements. (DataProps.v)
* **C06** Vector and matrix stacking. Flat-memory model of gsl vectors and matrices; stacking as list/grid append. (MemProps.v)
* **C07** apop_data_stack stacks each part and its labels. apop_data_stack over pages, all four part/direction cases, names padded. (StackProps.v)
* **C08** apop_data_split partitions, and is undone by stacking. Split as take/drop on every part; then stacking composed with it. (SplitProps.v)
* **C09** apop_data_rm_rows keeps exactly the unmarked rows. The in-place compaction loop of rm_rows with its moving write index, invariant over the rows. (DataProps.v)
* **C10** apop_data_rm_columns and prune_columns keep exactly the requested columns. rm_columns by mask; prune_columns by names with the do-not-drop mask. (DataProps.v)
* **C11** Listwise deletion removes exactly the incomplete rows. Marks of rows with NaN in any numeric part, then rm_rows (C09) or the copy. (MissingProps.v)
* **C12** Element get/set laws. get/set/ptr with index or name in either place; frame laws cell by cell. (AccessProps.v)
* **C13** Named elements behave as a list of key/value pairs. Named elements over the vector and its row names; by induction over the list of operations. (AccessProps.v)
* **C14** Matrix and vector realloc retain data. Row-major block realloc with the move-rows loops in both directions (flat memory). (MemProps.v)
* **C15** apop_text_alloc resizes without corruption. Heap of rows and cells; each step of apop_text_alloc; no leak, no dangling pointer. (TextProps.v)
* **C16** Transposition. Transposition of matrices, names and text; the in-place cycle. (AccessProps.v, TextProps.v)
* **C17** Page list laws. Chains of pages by title (literal or regex-free match), add, get, remove, by induction on the chain. (AccessProps.v)
* **C18** Row views show the rows asked for. The view macros as windows on the parent's memory: reads and writes through them. (AccessProps.v)
* **C19** Packing and unpacking are inverse. Pack/unpack: offsets over a list of pages, by induction on pages. (PackProps.v)
* **C20** apop_data_sort orders whole rows. The multi-key comparison and the permutation-cycle walk of `rearrange`, proved to apply the permutation in place; order by induction. (SortProps.v)
* **C21** apop_map applies the function everywhere exactly once. Functional model of the loops over any partition of the index range into threads; each index once. (MapProps.v)
* **C22** PMF compression conserves weight. The compress loop over observations with weights; conservation by induction. (PmfProps.v)
* **C23** PMF draws follow the weights. Binary search over an arbitrary nondecreasing cumulative array; the measure of the inputs giving each row. (PmfDrawProps.v)
* **C24** PMF cdf is a cdf. Cumulative weights; monotone, 0 to 1. (PmfDrawProps.v)
* **C25** Virtual-table registry is a finite map. vtable registry as a step function, refined to a finite map, by induction over operation lists. (RegProps.v)
* **C26** Settings groups are a map from name to group. Settings groups as a step function, refined to a map from names. (RegProps.v)
* **C27** Delimited-text line parsing. Character state machine with its ring buffer; against a printer of lines into fields. (ParseProps.v)
* **C28** Fixed-width line parsing. Fixed-width splitting of lines, against the same kind of printer. (ParseProps.v)
* **C29** Reading text loses no rows. The file loop over the line parser; counts and contents of rows; against printed files. (ParseProps.v)
* **C30** Percentiles are order statistics. Percentiles over a sorted copy (qsort is a sorting parameter), the rounding cases. (DistProps.v)
* **C31** Rank compress and expand are inverse. Rank expand/compress over lists; inverse both ways. (ConvProps.v)
* **C32** Crosstab conversion places each entry by its labels. Crosstab to data and back: label search over rows of query results. (ConvProps.v)
* **C33** Dot products and dimension checks. Dispatch of apop_dot on shapes and forms; the products as sums over the reals. (LinProps.v)
* **C34** Means, variances and covariances. GSL's recurrences for means and variances with weights, proved equal to the textbook sums; covariance and correlation. (StatsProps.v)
* **C35** Vector distances are metrics. Distance functions over the reals; metric laws (Minkowski for all exponents at least 1). (DistProps.v)
* **C36** Vector normalization. Normalisation types of vectors and of matrix rows/columns, with the undefined cases. (DistProps.v)
* **C37** Conjugate updating is order-free and incremental. Conjugate tables: posterior parameters after sequences of observations; order-free, incremental; the posterior is proportional to prior times likelihood. (LikeProps.v)
* **C38** Jackknife leaves each row out exactly once. The jackknife loop with its row swap; covariance of the replicates. (ResampProps.v)
* **C39** Metropolis-Hastings accept/reject bookkeeping. A step of Metropolis-Hastings over a tape of random inputs: acceptance, recording and counts as invariants of runs (adaptation left out). (McmcProps.v)
* **C40** Parameter blocks cover every parameter once. Blocks of parameters for all three settings, as a partition. (McmcProps.v)
* **C41** Data-constrained draws satisfy the constraint. Data-constrained draws as rejection over the generator's tape; the likelihood rescaled. (TransProps.v)
* **C42** Cross models leave the data chain intact. Cross models: splitting and joining the chain of pages, with every exit path. (CrossProps.v)
* **C43** Fixed parameters stay fixed. Fixed parameters: packing in and out of the reduced parameter set. (FixProps.v)
* **C44** Text paste lists the kept cells. text_paste over rows of cells with the prune callback. (AsstProps.v)
* **C45** Generalized harmonic numbers do not depend on call history. The memo of harmonic numbers with concurrent callers: interleavings of atomic steps. (AsstProps.v)
* **C46** Per-thread random generators are distinct and stable. Registry of generators by thread, seeds in order of first call. (AsstProps.v)
* **C47** Bins contain their data. Binning of vectors and data sets over the reals; totals. (HistProps.v)
* **C48** Moving average. Moving average: window sums. (HistProps.v)
* **C49** Model clear is idempotent and shapes parameters from data. apop_model_clear: shapes from declared sizes and data. (TransProps.v)
* **C50** Error codes are those documented. Error macros as functions of the options and the failing test. (TransProps.v)
* **C51** Sample moments are unbiased. Expectation over all samples with replacement, as finite sums. (UnbiasedProps.v)
* **C52** Entropy of a vector. Entropy of vectors and of data with counts. (SummProps.v)
* **C53** Data summaries. Summary tables composed from C34 and C30. (SummProps.v)
* **C54** Filling from a list. apop_data_fill over its argument list in row-major order. (FillProps.v)
* **C55** Bounded vectors. The bounding functions: nearest point in the half space. (LinProps.v)
* **C56** Bootstrap samples and summaries. Bootstrap: rows drawn from the tape; summaries of the replicates. (ResampProps.v)
* **C57** Scores are gradients of log likelihoods. Derivatives (Coquelicot) of the modelled log likelihoods against the modelled scores. (ScoreProps.v)
* **C58** Closed-form estimates maximise the likelihood. Maximum by concavity inequalities over the reals. (MleProps.v)
* **C59** The Uniform model is consistent. Uniform: likelihood, cdf, draws, constraint, estimate. (MleProps.v)
* **C60** apop_regex returns every match. Loop over an arbitrary leftmost matcher; matches in order, text table growing. (RegexProps.v)
* **C61** Beta from mean and variance. Algebra over the reals for beta_from_mean_var. (RegexProps.v)
* **C62** apop_model_draws fills every row from the generator of the thread that takes it. Draws distributed over threads: rows by iteration. (RegexProps.v)
* **C63** Goodness-of-fit and Kolmogorov-Smirnov statistics. Chi-squared and KS statistics as computed from two histograms. (HistProps.v)
* **C64** The two-sample Smirnov confidence is the share of lattice paths. The path-counting recurrence of the two-sample Smirnov distribution: proved to count lattice paths. (SmirnovProps.v)
* **C65** The one-sample Kolmogorov confidence is Marsaglia, Tsang and Wang's matrix formula. The Marsaglia-Tsang-Wang matrix and its power, as built and multiplied by the code. (SmirnovProps.v)
* **C66** Unique elements: the distinct values in order. Sort and removal of repeats; binary search in glibc's form. (FactProps.v)
* **C67** Factors and dummies. Categories, dummies, factors over pages; existing category pages. (FactProps.v)
* **C68** Coefficient of determination. Sums of squares over the reals, with and without weights. (FactProps.v)
* **C69** SQL aggregates are the statistics they are named after. The SQLite aggregate steps and finalisers over the reals; power sums by induction over rows. (AggProps.v)
* **C70** Query results arrive complete and in place. Callbacks over the rows of a query (columns and texts, NULLs); the page grows by a row for each. (QueryProps.v)
* **C71** Mixed queries put each column where its letter says. The mixed callback by letters; state invariant over rows. (MixedProps.v)
* **C72** Data sets written to a table can be read back. Table creation and prepared inserts as lists of values; composed with C70/C71 for the round trip. (DbProps.v)
* **C73** Raking meets the margins. `RakeModel` follows the index of the cells (lists of values with the rows that have them), the walk over all combinations of values, the notes of the first pass and the rounds. `RakeProofs` shows that all that equals one list function (`gstep`: scale the cells with a key); `RakeProps` proves the properties of it by invariants over steps, passes and rounds. The witnesses `_refuted` show the deviations. (RakeProps.v)
* **C74** Raking changes the table as little as possible. `RakeOptProps`: by the log-linear form of C73 the logarithm of the ratio is a sum of functions of keys, so that its total against any weights depends on their margins only (`key_sum`); then Gibbs' inequality term by term. (RakeOptProps.v)
* **C75** Least squares minimises the weighted errors. `OlsModel`: shuffle, prep, normal equations by apop_dot, inversion or solver (parameters), the pages; `OlsProofs` does the algebra (normal equations, decomposition of the sum of squares) with sums over indices, `OlsProps` states minimality, uniqueness and the reports. The inversion is assumed to be right on X'WX (`inverts`). (OlsProps.v)
* **C76** The regression's likelihood, score, predictions and tests are those of normal errors. `OlsLikeProps`: the fold over observations is the sum of log densities; the derivative is taken with `derivable_pt_lim` term by term; the t distribution is any symmetric monotone function. (OlsLikeProps.v)
* **C77** Instruments: the errors are orthogonal to them. `OlsModel` prep_z and estimate_iv; `OlsIvProps` uses the same algebra with instruments in place of X. (OlsIvProps.v)
* **C78** t tests. `TestModel` t_test, paired_t_test; `TestProps`, with GSL's distribution function any symmetric strictly increasing function. (TestProps.v)
* **C79** Chi-squared test of a table. `TestModel` chi_test; `TestTableProps` turns the loops into sums over indices, then algebra. (TestTableProps.v)
* **C80** Analysis of variance. `TestModel` anova_one_way, anova_two_way, over the groups the queries make (var_pop by `DbModel`, C69); `TestTableProps`. (TestTableProps.v)
* **C81** F test of a regression. `TestModel` f_test with apop_dot (C33) and an inversion assumed right; `TestFProps` shows the quadratic form to be a sum of squares. The contrast set is part of the result, so that the next call sees what was freed. (TestFProps.v)
* **C82** Looking up a statistic. `TestModel` apop_test; `TestLookupProps` by cases on the name's family. (TestLookupProps.v)
* **C83** Linear constraints. `ConsModel`: projection, translation of the pseudopoint, choice of the closest candidate with the scratch kept between calls. `ConsProps`: a point is nearest if the step to it makes no obtuse angle with any feasible step (`nearest_angle`); the choice is right if all candidates are feasible and one is nearest (`several`); then cases for two surfaces, and a loop invariant for the default. Histories are the inductive `reached`. (ConsProps.v)
* **C84** Distribution functions by simulation. `CdfModel`: worlds of models, draw matrices and counters. `CdfProps`: the invariant that a counter is at least the number of live groups that share it, kept by every call; then induction over histories (`reached`, `later`). (CdfProps.v)
* **C85** Logit likelihood and prediction. `LogitModel`; `LogitProps`: the subtract-the-maximum formula equals the logarithm of the probability for any number subtracted; the choice by a loop invariant; concavity by convexity of the log of a sum of exponentials. (LogitProps.v)
* **C86** Probit likelihood and score. `LogitModel` (section probit, over a distribution function and its density); `ProbitProps` differentiates the likelihood term by term. (ProbitProps.v)
* **C87** Special cases belong to their models. `DispModel`: the hash macros in 64-bit arithmetic over the registry of C25; `DispProps`: the registry gives the first match (C25), and the hashes are told apart by arithmetic on the range of addresses. (DispProps.v)
* **C88** A likelihood search ends, and its status. `SearchModel`: the shell around evaluations, the three loops with the minimiser as an arbitrary sequence of events, the info rows. `SearchSpec` says where the objective is evaluated and why a loop ends; `SearchProps` by induction over iterations. (SearchProps.v)
* **C89** The log likelihood, criteria and path reported by a search. `SearchModel`; `SearchLikeProps`: an invariant over every sequence of evaluations (path, running maximum, withdrawal of the info), carried through the loop. (SearchLikeProps.v)
* **C90** Restarting an estimation never loses ground. `RestartModel`: estimation as an arbitrary function that adds rows to the (copied) info page; `RestartProps`: lookups in an info page that has been added to (C13), induction over histories of restarts. (RestartProps.v)
* **C91** Numerical gradients. `DiffModel`: GSL's five-point rule on a function that changes the parameters, the loop over the dimensions; `DiffProps`: the rule as four difference quotients (limit) and by field arithmetic (polynomials). (DiffProps.v)
* **C92** Numerical Hessians and covariances. `DiffModel`; `HessProps`: the accumulated matrix in closed form by induction over the rows, with an invariant on the shared parameters; quadratic forms by sums. (HessProps.v)
* **C93** The step size of simulated annealing. `DiffModel` (annealing_step, annealing_distance); `AnnealProps`: sums over the cut points. (AnnealProps.v)
* **C94** A search by simulated annealing returns the best point it has tried. `AnnealModel`: gsl_siman_solve over copies of the infostruct that share the model; `AnnealProps`: one invariant over the moves (best so far, best_ll, path, constraint), termination by the powers of 1/mu_t. (AnnealProps.v)
* **C95** Searching one dimension at a time. `CycleModel` (dim_cycle) with arbitrary one-dimensional searches; `CycleProps`: one cycle is a fold; ascent by induction over the dimensions; termination by the Archimedean property. (CycleProps.v)
* **C96** The starting point of a model with fixed parameters. `CycleModel` (fix_table, fix_start): the table row by row in memory; `CycleProps`: for any number of free parameters. (CycleProps.v)
* **C97** The parameters of a mixture. `MixModel`: what copies share and what they do not, as two records; `MixProps`: layout by induction over the components; memory blocks for the frees. (MixProps.v)
* **C98** The likelihood of a mixture and its next weights. `MixModel`; `MixProps`: the greatest element specified on its own; the shares by algebra of exponentials and an exchange of sums. (MixProps.v)
* **C99** The constraint of a mixture. `MixModel` on top of `ConsModel` (C83); `MixProps`. (MixProps.v)
* **C100** Distribution function and draws of a mixture. `MixModel` on top of `PmfModel` (C23); `MixDrawProps`. (MixDrawProps.v)
* **C101** Kullback-Leibler divergence is the sum it is documented to be. `KlModel`: the loop of apop_kl_divergence with the macro's break; `KlProps`: Gibbs' inequality by ln x >= 1 - 1/x, summed by induction. (KlProps.v)
* **C102** The density of a kernel density estimate. `KdeModel`: the kernel's parameters as a state threaded through the loops; `KdeProps`: the logarithm of the sum by factoring out the greatest term, for -inf terms too. (KdeProps.v)
* **C103** A kernel density estimate is a distribution. `KdeModel`; `KdeProps`: weighted means; the integral by Coquelicot's linearity. (KdeProps.v)
* **C104** Estimates that share a kernel do not disturb each other. `KdeModel`: histories of calls and interleavings of thread steps; `KdeShareProps`: the states met are each a setting of the first. (KdeShareProps.v)
* **C105** Draws from a kernel density estimate. `KdeModel` on top of `PmfModel` (C23); `KdeShareProps`. (KdeShareProps.v)
* **C106** Who frees the parts of a kernel density estimate. `KdeModel`: memory blocks and owners; `KdeShareProps`. (KdeShareProps.v)
* **C107** The likelihood of a multinomial. `MultiModel`: the parameter vector turned into probabilities and back, GSL's densities by their formulas; `MultiProps`: sums of ln against the factorial formula, by induction on bins and rows. (MultiProps.v)
* **C108** Estimating a multinomial. `MultiModel`; `MultiEstProps`: Gibbs' inequality for the optimum, the quadratic form as a variance. (MultiEstProps.v)
* **C109** Drawing from a multinomial. `MultiModel`: the law of the loop of conditional binomials; `MultiDrawProps`: the product telescopes, by induction on the bins; rows of a block; steps of threads. (MultiDrawProps.v)
* **C110** Text files arrive in the table as they are. `TextDbModel`: the fields' conversion, binding to a prepared statement, the SQL texts built, and a reader of such texts; `TextDbProps`: what the reader gives is what was meant, by induction on fields and names. (TextDbProps.v)
* **C111** Whether a table exists, and removing it. `TextDbModel`: the database's objects as a list; `TabExistsProps`. (TabExistsProps.v)
* **C112** What is printed can be read back. OutModel: p_fn, apop_data_print_core with printf's conversions spelled out (digits, padding, six decimals by any nearest rounding). OutProps: each printed line is a written line of ParseSpec, so C29 gives what the reader makes of it; numerals in OutSpec. NaN and infinities are not modelled. (OutProps.v)
* **C113** Where output goes, and its pages. OutPageModel: apop_prep_output and the recursion over pages in apop_data_print; streams, files and tables as contents, with any split of a page between bytes written at once and at closing. OutPageProps: induction over the pages; the deviations on two small pages. (OutPageProps.v)
* **C114** Filling in missing data. ImputeModel on top of fix_params (TransModel): the swapped model, the shell an optimiser calls, apop_ml_impute, apop_predict; a search is any list of points. ImputeProps: an invariant over the list, using C43. (ImputeProps.v, ImputeShellProps.v)
* **C115** The envelope of adaptive rejection sampling stays above the log density. ArmsModel: all of apop_arms.c but display and the settings' copy and free; the linked list of points is a list. ArmsSpec: concavity, the broken line, reachable states. ArmsProofs: an invariant (alternating points, right intersections, order) kept by initial, meet, update, cumulate and test; chords of a concave function. (ArmsProps.v)
* **C116** Draws by adaptive rejection Metropolis sampling follow the density. The integral as an antiderivative of the piecewise exponential (derivable_pt_lim), inverted exactly; convexity of exp for the nearly flat pieces; induction over rounds and draws; a Lipschitz bound on the heights for the absence of underflow. (ArmsDrawProps.v, ArmsProps.v)
* **C117** The Zipf model's likelihood and draws agree. RankModel: zipf_log_likelihood, a turn of zipf_rng's loop and the loop over a tape. RankProofs: interval length times acceptance is a fixed multiple of n^-a; acceptance at most one by convexity of exp. zeta is a parameter, tied to its series. (RankProps.v)
* **C118** The Yule model's draws follow its likelihood. RankModel: yule_rng. RankProofs2: an antiderivative of exp(-s)(1-exp(-s/c))^k by recursion on k (Coquelicot's RInt), its value against the gamma functions of the likelihood, and the tail going to zero. (RankProps.v)
* **C119** The likelihood of a transformed model is the base model's with the Jacobian. CtModel: the dispatch between a model's methods and ct_ll, with doubles that may be infinite or NaN. CtProps: change of variables under Coquelicot's integral; the Lognormal model (LikeModel) by a sum of logs. (CtProps.v)
* **C120** A transformed model's parameters are its own. CtModel: blocks of parameters and the base models that point to them. CtProps: an invariant over every history of estimations. (CtProps.v)
* **C121** The Dirichlet model's likelihood, score and relation to the Beta. DirModel: the loops over rows and the score; the log gamma and digamma functions are parameters, tied by one being the other's derivative. DirProps: sums over rows; derivatives by sum rules. (DirProps.v)
* **C122** The multivariate Normal's draws follow its likelihood. MvnModel: the quadratic form as dsymv reads it, the triangular map of the draws; LU and Cholesky decompositions are parameters, specified by what they satisfy. MvnProps: triangular matrices are injective; the quadratic form of L z is z'z. (MvnProps.v)
* **C123** The t distribution model's estimate, likelihood, cdf and draws belong together. TModel: the three numbers and the named elements added to the parameters there are (DataModel's add_named_elmt); the library's t density, cdf and draws are parameters. TProps: sums of squares from StatsProofs; chain rule. (TProps.v)
* **C124** Principal components are the directions of greatest variation. PcaModel: centring, the matrix of sums of products, the loop over the dimensions; the singular value decomposition is a parameter, specified by what it satisfies. PcaProps: its vectors are eigenvectors because the matrix is positive semidefinite; expansion in an orthonormal basis. (PcaProps.v)
* **C125** The distribution of parameter estimates. PmodModel: the sizes, apop_data_pack (PackModel) of parameters and estimates, reading one element; the bootstrap's covariances and the estimates are inputs. PmodProps: pack lists all the numbers (C19); arithmetic of sizes. (PmodProps.v)
* **C126** What the Normal and Lognormal models report belongs together. NormModel: the both-parts variance, the covariance page, the copy with its logs, predictions, cdfs and draws; the library's distribution functions are parameters, specified by a Phi whose derivative is the standard density. NormProps: the lognormal likelihood is the Normal's of the logs (C119); C58's maxima; chain rule. NormMeanProps: mean and variance as integrals over the line, by the Gaussian integral (GaussProofs) and antiderivatives. (NormMeanProps.v, NormProps.v)
* **C127** Estimates, distribution functions and draws of the Gamma, Beta, Exponential and Bernoulli models. GamModel: means and variances of the parts and their weights, the estimates, the cdfs at the element that apop_data_get gives, the draws; the library's distribution functions are parameters, specified by their densities. GamProps: StatsProps for the moments, C61 for the Beta's, derivatives by Coquelicot; the likelihoods are those of LikeModel. (GamProps.v)
* **C128** Testing and repairing covariance matrices. PsdModel, over any ordered field (mathcomp): the loop over the leading minors; the repair as a relation, with any orthonormal eigenvectors and any number of turns. PsdProps: Sylvester's criterion by completing the square, one row and column at a time; the rebuilt matrix is a sum of squares with positive weights. (PsdProps.v)
* **C129** Multivariate Gamma function. MvgModel: the test (with the int quotient and the conversion to int), the loops; Gamma and its logarithm are parameters, specified where they are used. MvgProps: Gamma_n is the recursion in the dimension; induction on it; parity of the quotient. (MvgProps.v)
* **C130** Entropy of a model. EntModel: the function for the Normal, and the mean over the draws. EntProps: finite laws and their expected value over n draws (induction on n); for the Normal the integral over the line, with the Gaussian integral proved in GaussProofs (derivative under the integral, by Coquelicot). (EntProps.v)
* **C131** Likelihoods of one number are probability distributions. The likelihoods of LikeModel, at one number. MassProps: improper integrals by antiderivatives and their limits, the exponential series shifted once and twice (Coquelicot). (MassProps.v)

## What is modelled and what is not

Modelled, function by function (lines cited in the model files): `apop_name.m4.c`; most of `apop_data.m4.c`
(allocation, copy, stack, split, rows and columns, get/set, named elements, text, transposition, pages, views, pack and
unpack); `apop_sort.m4.c`; `apop_mapply.m4.c`; `apop_missing_data.m4.c`; `apop_vtables.c`;
`apop_settings.c`; the text parser, the loading of tables, rank and crosstab functions of `apop_conversions.m4.c`; most of `apop_stats.m4.c`;
`apop_linear_algebra.m4.c` (realloc, stacking, dot, bounds, pca); `apop_bootstrap.m4.c`; `apop_mcmc.m4.c` (accept/reject, blocks);
`apop_update.m4.c` (conjugate pairs); `apop_asst.m4.c`; `apop_hist.m4.c` and the KS tables; factors, dummies, unique elements and
R squared of `apop_regression.m4.c`; `apop_model.m4.c` (clear, copy, draws, cdf, parameter models); models bernoulli, beta, exponential, gamma, normal,
pmf, poisson, uniform and yule in part; zipf; t; dirichlet (not its draws) and multivariate normal (likelihood and draws); transforms dconstrain, cross, fix_params, coordinate transforms; the SQLite side of
`apop_db.m4.c` and `apop_db_sqlite.c` (aggregates, queries, table writing); `apop_rake.m4.c` (index and c_loglin; not its SQL); `apop_ols.c` (not its draws); `apop_tests.m4.c` (over the groups its queries make); `apop_linear_constraint.m4.c`; `apop_probit.c` (not its prep); the hash macros of `apop.m4.h`; `apop_mle.m4.c` (the shell, the loops, the info page, restarts, numerical derivatives, annealing, cycling); `apop_mixture.c`; `apop_kerneld.c`; `apop_multinomial.c`; `apop_kl_divergence`; `apop_output.m4.c` (not apop_data_show). The list per property is above; properties beyond
C131, if any, name their own files.

Not modelled: `display` and the copying and freeing of settings in `apop_arms.c`, `apop_fexact.c`, `apop_db_mysql.c`, `apop_loess.c`, the GSL minimisers behind
`apop_mle.m4.c`, `asprintf.c`, printing to gnuplot and pipes; SQLite, GSL's distributions and random generators, the C
library's printf/atof/qsort/regex themselves (parameters); floating-point rounding and overflow; failing allocation;
memory races beyond the interleavings stated.

## Trusted base

* Coq 8.16.1's kernel.
* The faithfulness of the models to the source as read (the code is not run here), within the simplifications stated
  in the comments.
* The libraries used: the Coq standard library, std++ (lists, maps; no axioms), Coquelicot (derivatives), mathcomp (matrices over an ordered field, in PsdModel and PsdProps; no axioms). No axiom is
  added; no axiom of any library other than the standard library appears. (Where a checker lists fields of
  `Rdefinitions` or of ssreflect's `Under_rel` these are sealed module fields of the library, with their
  implementations, not axioms.)
* The standard library's axioms, as `Print Assumptions` lists them for each theorem: `ClassicalDedekindReals.sig_forall_dec`
  and `sig_not_dec` (construction of the reals), `FunctionalExtensionality.functional_extensionality_dep`,
  `Classical_Prop.classic` (real analysis, by way of Coquelicot and the standard library).

### Axioms of each theorem

* Closed under the global context (309): C01_name_find_sound_complete, C01_exact_match_preferred, C01_exact_match_refuted, C02_name_add, C02_name_stack, C02_name_stack_vector, C02_name_copy, C02_copy_title_refuted, C03_lookup_after_removals, C03_stale_hash_refuted, C03_transpose_overread_refuted, C04_data_copy, C04_self_link, C04_vector_name_refuted, C04_error_flag_refuted, C05_memcpy_matching, C05_memcpy_errors, C05_text_mismatch_refuted, C06_vector_stack, C06_matrix_stack, C06_matrix_stack_mismatch, C06_matrix_stack_null, C07_row_stack, C07_column_stack, C07_stack_null, C07_text_mismatch, C07_matrix_mismatch_refuted, C07_column_names_refuted, C07_text_alignment_refuted, C08_row_split, C08_row_split_ends, C08_row_split_restack, C08_column_split, C08_column_split_restack, C08_vector_past_end_refuted, C08_capital_R_refuted, C08_short_text_names_refuted, C09_rm_rows, C09_partial_names_refuted, C09_ragged_refuted, C10_rm_columns, C10_prune_columns, C10_unnamed_columns_refuted, C11_listwise_delete, C11_ragged_refuted, C12_set_then_get, C12_get_reads_place, C12_unknown_name, C12_by_name, C12_out_of_bounds_set_unchanged, C12_out_of_bounds_code_refuted, C12_out_of_bounds_get_refuted, C13_holds_pairs, C13_get_by_key, C14_matrix_realloc_retains, C14_realloc_view_refused, C14_realloc_to_zero_height_refuted, C14_vector_realloc_retains, C15_text_alloc, C15_text_alloc_overrun_refuted, C15_text_alloc_zero, C15_text_set, C15_text_history_safe, C16_data_transpose, C16_transpose_twice, C16_percent_refuted, C16_text_transpose_inplace, C16_text_transpose_twice, C17_get_page, C17_add_page, C17_rm_page, C17_untitled_page_refuted, C17_add_then_remove, C18_row_views, C18_row_names_refuted, C18_column_views, C18_column_view_past_end, C19_pack_lists_all, C19_pack_first_page, C19_pack_wrong_size, C19_roundtrip, C19_info_page_lost_refuted, C19_text_page_refuted, C19_info_first_refuted, C19_info_pages, C20_one_key, C20_many_keys, C20_names_lost_refuted, C20_name_lookup_refuted, C20_descending_refuted, C20_case_refuted, C20_key_order, C20_equal_rank_refuted, C20_first_page_only, C20_default_keys, C20_default_sort, C21_any_schedule, C21_loop_finishes, C21_map_scalars, C21_map_scalars_inplace, C21_map_all_pages, C21_map_all_pages_inplace, C21_map_rows, C21_map_columns, C21_map_rows_inplace, C21_map_data_rows, C21_map_data_rows_inplace, C21_map_sum, C21_map_sum_all_pages, C21_map_sum_rows, C21_vector_map, C21_matrix_map, C21_matrix_map_all, C21_matrix_apply, C21_map_sum_garbage_refuted, C21_map_sum_no_matrix_refuted, C21_index_orientation_refuted, C21_inplace_short_vector_refuted, C21_void_all_pages_refuted, C21_column_names_refuted, C22_compress_keeps_first_rows, C22_total_weight_conserved, C22_one_row, C22_ragged_text_refuted, C23_draw_output, C23_vector_and_matrix_refuted, C25_registry_is_a_map, C25_library_tables_told_apart, C25_second_add_ignored, C25_drop_reads_outside_refuted, C25_hash_collision_refuted, C26_settings_are_a_map, C26_model_copy, C26_library_groups_usable, C26_hash_collision_refuted, C26_long_name_copy_refuted, C27_line, C27_last_line, C27_total, C27_comment_at_end_refuted, C27_byte_255_refuted, C27_doubled_quote_refuted, C27_trailing_tab_refuted, C27_quoted_empty_refuted, C28_fixed, C28_long_line_refuted, C29_header, C29_no_header, C29_db, C29_single_unterminated_refuted, C29_no_data_refuted, C29_short_line_refuted, C29_long_line_refuted, C29_db_unterminated_refuted, C31_listed, C32_search_found, C32_search_absent, C32_search_absent_refuted, C32_crosstab, C32_failures, C32_name_column_refuted, C32_query_error_refuted, C32_to_db, C32_roundtrip, C32_unnamed_refuted, C34_column, C38_leave_one_out, C40_layout, C40_contents, C41_draw, C41_code_refuted, C42_value, C42_split, C42_draw, C42_many, C42_wide_refuted, C42_null_refuted, C42_one_refuted, C42_size_refuted, C43_unpack, C43_history, C43_pack, C43_none, C43_pages_refuted, C44_paste, C44_nothing, C44_prune, C44_sense_refuted, C44_separator_refuted, C46_stable, C46_seeds, C46_negative_refuted, C46_seed_refuted, C46_race_refuted, C46_threads, C47_rounding_refuted, C49_shapes, C49_idempotent, C49_kept, C49_onesize_refuted, C50_error_set, C50_letter_refuted, C50_stopif, C50_halt_refuted, C50_silent_refuted, C54_data_fill, C54_vector_fill, C54_text_fill, C54_few_strings_refuted, C54_heights_differ, C56_resample, C56_ignore_nans, C56_plain, C56_first_nan_refuted, C60_substrings, C60_count, C60_columns, C60_empty_match_refuted, C62_rows, C62_schedule, C62_errors_refuted, C66_text, C66_only_one_text, C66_empty_refuted, C67_titles, C67_append, C67_remove, C67_insert, C67_insert_last_refuted, C67_insert_names_refuted, C67_remove_refuted, C67_title_collision_refuted, C70_data, C70_empty, C70_fail, C70_names_only, C70_vector, C70_vector_empty, C70_float, C70_text, C70_text_empty, C70_text_refuted, C70_text_names_refuted, C71_mixed, C71_empty, C71_dimension, C71_fewer_columns_refuted, C72_create, C72_append, C72_mismatch, C72_round_trip, C72_same, C72_matrix, C72_text_names_refuted, C77_refuted_no_instruments, C82_refuted_null, C87_score, C87_predict, C87_refuted_predict, C87_print, C87_refuted_update, C88_default_method, C90_start, C90_refuted_start, C90_refuted_again, C97_prep, C97_unpack, C97_refuted_empty, C97_refuted_free, C102_default_set, C104_threads, C104_refuted_draws, C106_freed_once, C106_refuted_copy, C106_refuted_reestimate, C109_rows, C109_refuted_overrun, C110_rows, C110_wide, C110_existing, C110_refuted_long, C110_refuted_row_names, C110_refuted_short, C110_refuted_command, C110_refuted_name, C110_refuted_nan, C111_answer, C111_asking, C111_removal, C111_absent, C111_refuted_case, C111_refuted_temp, C112_refuted_null_name_column, C113_stream, C113_file, C113_file_pages, C113_append_keeps, C113_table, C113_refuted_cannot_open, C114_complete, C120_refuted_group, C125_one, C125_stochastic, C128_definite, C128_none, C128_refuted_semidefinite, C128_repair, C128_refuted_trace, C128_refuted_changed.
* `ClassicalDedekindReals.sig_forall_dec` (22): C33_mismatch, C33_no_part, C33_vector_mismatch_refuted, C37_beta_binomial_params, C40_info_refuted, C52_empty, C56_nan_row_refuted, C70_null_name_refuted, C70_vector_refuted, C71_more_columns_refuted, C71_two_names_refuted, C72_empty_name_refuted, C72_row_names_refuted, C75_shuffle, C75_shuffle_refuted_empty_name, C77_substitution, C77_by_name, C96_one, C96_refuted, C125_all, C125_refuted_size, C125_refuted_draws.
* `ClassicalDedekindReals.sig_forall_dec`, `FunctionalExtensionality.functional_extensionality_dep` (231): C23_draw_follows_weights, C23_zero_weight_never_drawn, C23_draw_zero, C23_zero_weight_drawn_refuted, C23_bad_density, C23_unweighted_last_row_refuted, C24_cdf_first_and_absent, C24_cdf_computes_double_sum, C24_cdf_exceeds_one_refuted, C24_unweighted_cdf_below_one_refuted, C24_probabilities, C24_probabilities_multiply, C30_percentiles, C30_coverage, C30_average, C30_average_coverage_refuted, C31_compress, C31_expand, C31_compress_expand, C31_expand_compress, C31_vector_counts_refuted, C31_min_bins_refuted, C33_matrix_matrix, C33_vector_matrix, C33_matrix_vector, C33_vector_vector, C33_associative, C33_transpose, C34_mean, C34_weighted_mean, C34_replicate_mean, C34_replicate_var, C34_replicate_cov, C34_replicate_skew, C34_replicate_kurtosis, C34_var, C34_cov, C34_skew_pop, C34_kurtosis_pop, C34_var_nonneg, C34_weighted_var_nonneg, C34_cov_sym, C34_cov_diag, C34_bad_sizes, C34_covariance_matrix, C34_matrix_sum, C34_matrix_mean, C34_matrix_mean_and_var, C34_vector_sum, C34_unit_weights_refuted, C37_mapsum, C37_sequential, C38_covariance, C38_scale_refuted, C41_scaling, C48_average, C48_other, C48_even_refuted, C48_wide_refuted, C51_var_unbiased, C51_skew_unbiased, C51_defined, C51_kurtosis_refuted, C55_bounded, C55_boundary_refuted, C59_cdf, C61_moments, C61_unique, C61_range, C61_variance_refuted, C63_fit, C63_impossible, C63_distance, C63_distance_two, C63_self_refuted, C64_paths, C64_attained, C64_symmetric, C65_multiply, C65_power, C65_distribution, C66_vector, C66_only_one, C67_dummies_text, C67_dummies_text_known, C67_dummies_num, C67_factors_text, C67_factors_num, C67_factors_space, C67_dummies_vector_refuted, C67_percent_refuted, C67_new_category_refuted, C67_new_number_refuted, C67_new_number_dummy_refuted, C67_space_refuted, C68_r_squared, C68_range, C68_weighted, C68_weights_scale_refuted, C68_adjusted_refuted, C73_terminates, C73_log_linear, C73_last_margin, C73_converged, C73_fixed_point, C73_one_contrast, C73_error, C73_false_alarm_refuted, C73_silent_refuted, C73_unmet_refuted, C73_nan_refuted, C73_no_variable_refuted, C74_no_cell_lost, C76_unprepared, C76_predict, C76_predict_unprepared, C79_independence, C79_zero, C79_transpose, C79_null, C79_refuted_single, C79_refuted_total, C81_f_test, C81_sign, C81_default, C81_errors, C81_refuted_df, C81_refuted_width, C81_refuted_reuse, C81_reuse, C82_tails, C82_complement, C82_two_tails, C82_defaults, C82_missing, C82_case, C82_refuted_normal, C82_refuted_lognormal, C82_refuted_zero, C82_refuted_uniform, C84_safe, C84_share, C84_monotone, C84_kept, C84_copy, C84_same, C84_refuted_stale, C84_refuted_leak, C89_refuted_twice, C90_bounded, C90_greater, C90_choice, C90_history, C90_refuted_default, C90_refuted_loop, C90_fresh_copy, C91_consistent, C91_exact, C91_refuted_moved, C91_refuted_drift, C91_refuted_penalty, C92_symmetric, C92_quadratic, C92_score, C92_covariance, C92_refuted_estimate, C92_refuted_place, C93_distance, C93_sorted, C93_bound, C93_refuted, C95_order, C95_ends, C95_refuted_recorded, C95_refuted_unbounded, C97_new, C100_cdf, C100_is_cdf, C100_draw, C100_refuted_stale, C100_refuted_moved, C103_cdf, C103_is_cdf, C105_draw, C105_refuted_last, C108_shares, C108_covariance, C108_refuted_dsize, C109_multinomial, C109_two_bins, C109_refuted_whole, C109_refuted_successes, C109_serial, C109_refuted_threads, C112_read_back, C112_refuted_visible_delimiter, C112_refuted_named_weights, C112_refuted_title, C112_refuted_longer_vector, C112_refuted_name_column, C112_refuted_large, C112_refuted_small, C113_refuted_overwritten, C113_refuted_reversed, C113_refuted_default_append, C113_refuted_pipe_closed, C113_refuted_table_pages, C114_impute, C114_nothing, C114_default, C114_own, C114_predict_complete, C114_predict, C114_predict_null, C114_refuted_pages, C114_refuted_penalty, C114_objective, C122_onto, C122_refuted_asymmetric, C124_centred, C124_components, C124_best, C124_whole, C124_refuted_constant, C124_refuted_dims, C127_gamma, C127_beta, C127_beta_draw, C127_refuted_beta, C127_refuted_gamma, C130_default.
* `ClassicalDedekindReals.sig_forall_dec`, `ClassicalDedekindReals.sig_not_dec`, `FunctionalExtensionality.functional_extensionality_dep` (75): C34_correlation, C34_correlation_matrix, C36_p, C36_p_zero, C36_r, C36_m, C36_s, C36_s_const, C36_r_const, C47_shape, C47_given, C47_own, C47_page, C47_constant_refuted, C47_close_refuted, C53_summarize, C53_no_matrix, C69_variance, C69_var_vector, C69_skew, C69_kurtosis, C69_small, C69_nulls, C69_order, C69_null_refuted, C69_kurtosis_refuted, C75_least_squares, C75_parameters_only, C75_reports, C75_exact, C75_data_and_names, C75_refuted_covariance_only, C75_refuted_singular, C75_refuted_residual_sign, C75_refuted_weighted_page, C76_tests, C77_estimate, C77_exact, C77_weights, C77_refuted_weights, C78_t_test, C78_swap, C78_affine, C78_paired, C78_paired_lengths, C78_refuted_statistic, C78_refuted_paired, C80_one_way, C80_two_way, C80_refuted_groups, C80_refuted_p, C85_refuted_draw, C97_refuted_shared, C98_value, C98_next, C98_refuted_one, C98_refuted_zero, C103_mass, C103_integral, C115_set_up, C115_bad_settings, C115_not_concave, C123_estimate, C123_matrix, C123_mean, C123_few, C123_refuted_matrix, C123_refuted_parts, C123_refuted_again, C125_refuted_sd, C126_page, C126_estimate, C126_predict, C126_refuted_page, C126_refuted_predict.
* `ClassicalDedekindReals.sig_forall_dec`, `ClassicalDedekindReals.sig_not_dec`, `Classical_Prop.classic`, `FunctionalExtensionality.functional_extensionality_dep` (193): C35_values, C35_metric, C35_triangle, C35_lp_special, C35_default_zero, C35_bad_input, C35_manhattan_sum_refuted, C35_small_norm_refuted, C37_beta_bernoulli, C37_gamma_exponential, C37_gamma_poisson, C37_normal_normal, C37_normal_observation, C37_beta_binomial, C37_wide_refuted, C37_vector_refuted, C39_run, C39_terminates, C39_burnin_refuted, C39_error_refuted, C39_nan_refuted, C39_draw, C41_loglik, C41_copy_refuted, C41_free_refuted, C45_history, C45_threads, C45_threads_uniform, C45_race_refuted, C52_shannon, C52_scale, C52_bounds, C52_uniform, C52_negative, C52_negative_zero_sum_refuted, C57_normal, C57_lognormal, C57_exponential, C57_poisson, C57_gamma, C57_beta, C57_yule, C57_poisson_vector_refuted, C57_gamma_zero_refuted, C58_exponential, C58_poisson, C58_bernoulli, C58_normal_mean, C58_normal_matrix, C58_normal_vector_refuted, C58_exponential_refuted, C59_likelihood, C59_estimate, C74_closest, C74_likelihood, C74_unique, C75_refuted_default_parts, C76_log_likelihood, C76_log_likelihood_plain, C76_score, C76_refuted_copy, C76_refuted_score_sign, C83_met, C83_one, C83_two, C83_default, C83_refuted_margin, C83_refuted_length, C83_refuted_history, C83_refuted_margin_default, C85_likelihood, C85_prediction, C85_concave, C85_refuted_unlisted, C86_likelihood, C86_score, C86_refuted_columns, C86_refuted_formula, C88_terminates, C88_status, C88_refuted_simplex, C88_refuted_freed, C88_refuted_documented, C88_refuted_first_iteration, C89_reported, C89_criteria, C89_path, C89_refuted_matrix, C89_refuted_elsewhere, C89_withdrawn, C94_best, C94_path, C94_constraint, C94_reported, C94_terminates, C94_refuted_nan, C94_refuted_signal, C98_equal, C99_met, C99_penalty, C99_refuted, C99_refuted_missing, C101_value, C101_gibbs, C101_self, C101_refuted_repeated, C101_refuted_unsynced, C101_draws, C102_density, C104_history, C104_refuted_kernel_kept, C107_value, C107_two_bins, C107_refuted_n2, C108_mle, C115_envelope, C115_points, C115_no_violation, C116_rounds, C116_mass, C116_proposal, C116_rejection, C116_metropolis, C116_chain_moves, C116_draws, C116_no_underflow, C116_refuted_written, C117_likelihood, C117_total, C117_round, C117_cover, C117_draw, C117_error, C117_refuted_overflow, C118_given, C118_chance, C118_mixture, C118_zero, C118_refuted_overflow, C118_refuted_unchecked, C119_dispatch, C119_likelihood, C119_interval, C119_lognormal, C119_example, C119_refuted_example, C120_defined, C120_shared, C120_keeps, C120_refuted_second, C120_refuted_copy, C121_likelihood, C121_score, C121_beta, C121_refuted_small, C122_draw, C122_volume, C122_rows, C122_independent, C122_degenerate, C123_distribution, C123_cells, C126_moments, C126_expected_draw, C126_lognormal_vector, C126_lognormal_matrix, C126_information, C126_normal_cdf, C126_lognormal_cdf, C126_draws, C126_refuted_both, C126_refuted_lognormal, C127_gamma_cdf, C127_beta_cdf, C127_exponential_cdf, C127_bernoulli, C127_refuted_page, C129_nan, C129_value, C129_positive, C129_refuted_even, C129_refuted_large, C130_pmf, C130_normal, C130_refuted_pmf, C131_exponential, C131_poisson, C131_poisson_support, C131_uniform, C131_bernoulli, C131_refuted_exponential, C131_refuted_poisson, C131_refuted_bernoulli.
