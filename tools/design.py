#!/usr/bin/env python3
import json, re, glob, os
plan = {
"C01":"Name lists with their hash arrays (cells uninitialised until written); search by hash with wrap-around mod 2^64; first-match specification, by induction on the list.",
"C02":"As C01: the add and stack functions as list appends; frame statement for the other lists.",
"C03":"Lookup after each structural edit (rm, transpose, stack, sort...): the hash arrays follow the names or not; composed from the models of those edits.",
"C04":"Pages with optional vector/matrix/text/weights, names, error, chain of pages (with the self-link); copy by structural recursion on the chain.",
"C05":"As C04: memcpy with its early returns; frame statements.",
"C06":"Flat-memory model of gsl vectors and matrices; stacking as list/grid append.",
"C07":"apop_data_stack over pages, all four part/direction cases, names padded.",
"C08":"Split as take/drop on every part; then stacking composed with it.",
"C09":"The in-place compaction loop of rm_rows with its moving write index, invariant over the rows.",
"C10":"rm_columns by mask; prune_columns by names with the do-not-drop mask.",
"C11":"Marks of rows with NaN in any numeric part, then rm_rows (C09) or the copy.",
"C12":"get/set/ptr with index or name in either place; frame laws cell by cell.",
"C13":"Named elements over the vector and its row names; by induction over the list of operations.",
"C14":"Row-major block realloc with the move-rows loops in both directions (flat memory).",
"C15":"Heap of rows and cells; each step of apop_text_alloc; no leak, no dangling pointer.",
"C16":"Transposition of matrices, names and text; the in-place cycle.",
"C17":"Chains of pages by title (literal or regex-free match), add, get, remove, by induction on the chain.",
"C18":"The view macros as windows on the parent's memory: reads and writes through them.",
"C19":"Pack/unpack: offsets over a list of pages, by induction on pages.",
"C20":"The multi-key comparison and the permutation-cycle walk of `rearrange`, proved to apply the permutation in place; order by induction.",
"C21":"Functional model of the loops over any partition of the index range into threads; each index once.",
"C22":"The compress loop over observations with weights; conservation by induction.",
"C23":"Binary search over an arbitrary nondecreasing cumulative array; the measure of the inputs giving each row.",
"C24":"Cumulative weights; monotone, 0 to 1.",
"C25":"vtable registry as a step function, refined to a finite map, by induction over operation lists.",
"C26":"Settings groups as a step function, refined to a map from names.",
"C27":"Character state machine with its ring buffer; against a printer of lines into fields.",
"C28":"Fixed-width splitting of lines, against the same kind of printer.",
"C29":"The file loop over the line parser; counts and contents of rows; against printed files.",
"C30":"Percentiles over a sorted copy (qsort is a sorting parameter), the rounding cases.",
"C31":"Rank expand/compress over lists; inverse both ways.",
"C32":"Crosstab to data and back: label search over rows of query results.",
"C33":"Dispatch of apop_dot on shapes and forms; the products as sums over the reals.",
"C34":"GSL's recurrences for means and variances with weights, proved equal to the textbook sums; covariance and correlation.",
"C35":"Distance functions over the reals; metric laws (Minkowski for all exponents at least 1).",
"C36":"Normalisation types of vectors and of matrix rows/columns, with the undefined cases.",
"C37":"Conjugate tables: posterior parameters after sequences of observations; order-free, incremental; the posterior is proportional to prior times likelihood.",
"C38":"The jackknife loop with its row swap; covariance of the replicates.",
"C39":"A step of Metropolis-Hastings over a tape of random inputs: acceptance, recording and counts as invariants of runs (adaptation left out).",
"C40":"Blocks of parameters for all three settings, as a partition.",
"C41":"Data-constrained draws as rejection over the generator's tape; the likelihood rescaled.",
"C42":"Cross models: splitting and joining the chain of pages, with every exit path.",
"C43":"Fixed parameters: packing in and out of the reduced parameter set.",
"C44":"text_paste over rows of cells with the prune callback.",
"C45":"The memo of harmonic numbers with concurrent callers: interleavings of atomic steps.",
"C46":"Registry of generators by thread, seeds in order of first call.",
"C47":"Binning of vectors and data sets over the reals; totals.",
"C48":"Moving average: window sums.",
"C49":"apop_model_clear: shapes from declared sizes and data.",
"C50":"Error macros as functions of the options and the failing test.",
"C51":"Expectation over all samples with replacement, as finite sums.",
"C52":"Entropy of vectors and of data with counts.",
"C53":"Summary tables composed from C34 and C30.",
"C54":"apop_data_fill over its argument list in row-major order.",
"C55":"The bounding functions: nearest point in the half space.",
"C56":"Bootstrap: rows drawn from the tape; summaries of the replicates.",
"C57":"Derivatives (Coquelicot) of the modelled log likelihoods against the modelled scores.",
"C58":"Maximum by concavity inequalities over the reals.",
"C59":"Uniform: likelihood, cdf, draws, constraint, estimate.",
"C60":"Loop over an arbitrary leftmost matcher; matches in order, text table growing.",
"C61":"Algebra over the reals for beta_from_mean_var.",
"C62":"Draws distributed over threads: rows by iteration.",
"C63":"Chi-squared and KS statistics as computed from two histograms.",
"C64":"The path-counting recurrence of the two-sample Smirnov distribution: proved to count lattice paths.",
"C65":"The Marsaglia-Tsang-Wang matrix and its power, as built and multiplied by the code.",
"C66":"Sort and removal of repeats; binary search in glibc's form.",
"C67":"Categories, dummies, factors over pages; existing category pages.",
"C68":"Sums of squares over the reals, with and without weights.",
"C69":"The SQLite aggregate steps and finalisers over the reals; power sums by induction over rows.",
"C70":"Callbacks over the rows of a query (columns and texts, NULLs); the page grows by a row for each.",
"C71":"The mixed callback by letters; state invariant over rows.",
"C72":"Table creation and prepared inserts as lists of values; composed with C70/C71 for the round trip.",
}
exec(open('/verif/tools/design_extra.py').read())
props = [json.loads(l) for l in open('/verif/properties.jsonl')]
man = {c['property']: c for c in json.load(open('/verif/MANIFEST.json'))['claims']}
loc = {}
for f in glob.glob('/verif/rocq/theories/*Props*.v'):
    for m in re.finditer(r'^\s*Theorem (C\d+_\w+)', open(f).read(), re.M): loc[m.group(1)] = os.path.basename(f)
out = open('/verif/tools/design_head.md').read()
for p in props:
    fs = sorted({loc[t] for t in man.get(p['id'], {'theorems': []})['theorems']})
    out += '* **%s** %s. %s (%s)\n' % (p['id'], p['title'], plan[p['id']], ', '.join(fs))
out += open('/verif/tools/design_tail.md').read()
out += open('/verif/tools/assumptions.md').read()
open('/verif/DESIGN.md', 'w').write(out)
