
## What is modelled and what is not

Modelled, function by function (lines cited in the model files): `apop_name.m4.c`; most of `apop_data.m4.c`
(allocation, copy, stack, split, rows and columns, get/set, named elements, text, transposition, pages, views, pack and
unpack); `apop_sort.m4.c`; `apop_mapply.m4.c`; `apop_missing_data.m4.c`; `apop_vtables.c`;
`apop_settings.c`; the text parser, the loading of tables, rank and crosstab functions of `apop_conversions.m4.c`; most of `apop_stats.m4.c`;
`apop_linear_algebra.m4.c` (realloc, stacking, dot, bounds, pca); `apop_bootstrap.m4.c`; `apop_mcmc.m4.c` (accept/reject, blocks);
`apop_update.m4.c` (conjugate pairs); `apop_asst.m4.c`; `apop_hist.m4.c` and the KS tables; factors, dummies, unique elements and
R squared of `apop_regression.m4.c`; `apop_model.m4.c` (clear, copy, draws, cdf, parameter models); models bernoulli, beta, exponential, gamma, normal,
pmf, poisson, uniform and yule in part; zipf; t; dirichlet (not its draws) and multivariate normal (likelihood and draws); transforms dconstrain, cross, fix_params, coordinate transforms; the SQLite side of
`apop_db.m4.c` and `apop_db_sqlite.c` (aggregates, queries, table writing); `apop_rake.m4.c` (index and c_loglin; not its SQL); `apop_ols.c` (not its draws); `apop_tests.m4.c` (over the groups its queries make); `apop_linear_constraint.m4.c`; `apop_probit.c` (not its prep); the hash macros of `apop.m4.h`; `apop_mle.m4.c` (the shell, the loops, the info page, restarts, numerical derivatives, annealing, cycling); `apop_mixture.c`; `apop_kerneld.c`; `apop_multinomial.c`; `apop_kl_divergence`; `apop_output.m4.c` (not apop_data_show). The list per property is above; properties beyond
C131, if any, name their own files.

Not modelled: `display` and the copying and freeing of settings in `apop_arms.c`, `apop_fexact.c`, `apop_db_mysql.c`, `apop_loess.c`, the GSL minimisers behind
`apop_mle.m4.c`, `asprintf.c`, printing to gnuplot and pipes; SQLite, GSL's distributions and random generators, the C
library's printf/atof/qsort/regex themselves (parameters); floating-point rounding and overflow; failing allocation;
memory races beyond the interleavings stated.

## Trusted base

* Coq 8.16.1's kernel.
* The faithfulness of the models to the source as read (the code is not run here), within the simplifications stated
  in the comments.
* The libraries used: the Coq standard library, std++ (lists, maps; no axioms), Coquelicot (derivatives), mathcomp (matrices over an ordered field, in PsdModel and PsdProps; no axioms). No axiom is
  added; no axiom of any library other than the standard library appears. (Where a checker lists fields of
  `Rdefinitions` or of ssreflect's `Under_rel` these are sealed module fields of the library, with their
  implementations, not axioms.)
* The standard library's axioms, as `Print Assumptions` lists them for each theorem: `ClassicalDedekindReals.sig_forall_dec`
  and `sig_not_dec` (construction of the reals), `FunctionalExtensionality.functional_extensionality_dep`,
  `Classical_Prop.classic` (real analysis, by way of Coquelicot and the standard library).

### Axioms of each theorem

