{"id": "C01", "title": "Name lookup is sound and complete", "statement": "apop_name_find(n, name, type) returns a position holding a name that is case-insensitively equal to the request; for type 'c' it returns -1 exactly when no column matches but the vector name does; it returns -2 exactly when nothing matches. On a name list built by apop_name_add an exact-case match is preferred over an earlier case variant, if the requested name has at most 12 characters.", "quantifier": "every list of names, every sequence of name additions, every requested string and type", "why_tests_cant": "Tests look up a few names; hash collisions, case variants and every list order must all be covered.", "anchors": ["apop_name.m4.c:apop_name_find", "apop_name.m4.c:apop_name_add", "apop_name.m4.c:apop_name_hash"], "deviations": "For longer names case variants can have the same hash and then the earlier variant is returned."}
{"id": "C02", "title": "Name add and stack append and touch nothing else", "statement": "apop_name_add appends one name at the end of the requested list (or overwrites title/vector name) and returns the new count, leaving every other list alone; apop_name_stack appends all names of one list of the source after those of the destination, even when stacking a set onto itself; apop_name_copy duplicates all lists, and the title if there is one.", "quantifier": "every pair of name sets, every type letter", "why_tests_cant": "The frame condition ranges over all other lists and sizes.", "anchors": ["apop_name.m4.c:apop_name_add", "apop_name.m4.c:apop_name_stack", "apop_name.m4.c:apop_name_copy"], "deviations": "Copying a set without a title gives it the title \"(null)\"."}
{"id": "C03", "title": "Lookup by name survives structural edits", "statement": "After any history of name additions, apop_data_rm_columns and apop_data_rm_rows, looking up a name never reads outside the name structure, returns only positions of case-insensitive matches, and reports not-found exactly if there is none.", "quantifier": "every history of name additions, row/column removals and transpositions", "why_tests_cant": "It depends on the history of edits to an auxiliary hash array that tests never look at.", "anchors": ["apop_data.m4.c:apop_data_rm_columns", "apop_data.m4.c:apop_data_rm_rows", "apop_data.m4.c:apop_data_transpose", "apop_name.m4.c:apop_name_find"], "deviations": "After a column removal the exact-case preference can be lost (stale hashes); after an in-place transposition the lookup can read past the hash array."}
{"id": "C04", "title": "apop_data_copy duplicates all data", "statement": "apop_data_copy of a set without error flags returns a data set whose vector, matrix, weights, text, row/column/text names, titles and all later pages equal those of the input; a self-linked page yields error 'c'.", "quantifier": "every well-formed data set of every shape and number of pages", "why_tests_cant": "Shapes, pages and combinations of absent parts are unbounded.", "anchors": ["apop_data.m4.c:apop_data_copy", "apop_data.m4.c:apop_data_memcpy"], "deviations": "The vector name is not copied if there is no vector; a page with an error flag is copied only as a flag."}
{"id": "C05", "title": "apop_data_memcpy checks shapes before writing", "statement": "apop_data_memcpy copies every part when the shapes agree; if vector, matrix or weights are missing in the destination it sets error 'p', if their dimensions differ it sets error 'd', and then that part is unchanged.", "quantifier": "every pair of source and destination data sets", "why_tests_cant": "All pairs of shapes, including mismatched text grids.", "anchors": ["apop_data.m4.c:apop_data_memcpy"], "deviations": "A text-size mismatch is detected but the copy goes on and writes past the destination's text."}
{"id": "C06", "title": "Vector and matrix stacking", "statement": "apop_vector_stack returns the concatenation; apop_matrix_stack puts the rows (or columns) of the second after those of the first, refuses (NULL) mismatched dimensions, and gives the same answer in place or not.", "quantifier": "all sizes and contents of both operands", "why_tests_cant": "Index arithmetic over all dimensions.", "anchors": ["apop_linear_algebra.m4.c:apop_vector_stack", "apop_linear_algebra.m4.c:apop_matrix_stack"]}
{"id": "C07", "title": "apop_data_stack stacks each part and its labels", "statement": "Row stacking two error-free data sets whose matrices (texts) have the same width gives vectors, weights, matrices and text one over the other and keeps every row name attached to its row; column stacking sets of the same height, not both with a vector, puts the columns side by side and keeps each column name attached to its column; a text mismatch is reported by error 'd'.", "quantifier": "all pairs of data sets, any missing parts or partially named rows", "why_tests_cant": "The label/row attachment must hold for every combination of absent parts and partial name lists.", "anchors": ["apop_data.m4.c:apop_data_stack"], "deviations": "A matrix mismatch loses the first set's matrix; two vectors or surplus column names detach names; a set without text shifts text rows against matrix rows."}
{"id": "C08", "title": "apop_data_split partitions, and is undone by stacking", "statement": "Splitting by rows at a point strictly inside every part, or by columns at any point inside the matrix, gives two sets which together hold exactly the rows/columns of the input, in order, with weights, names and (for rows) text, and stacking them again restores the vector, matrix, weights and names; a row split outside the matrix gives a copy and NULL.", "quantifier": "every data set and every splitpoint, in and out of range", "why_tests_cant": "Splitpoints and shapes are unbounded and contain boundary cases.", "anchors": ["apop_data.m4.c:apop_data_split", "apop_data.m4.c:apop_data_stack"], "deviations": "A vector-only set split past its end, the documented capital letter, and text or names shorter than the split point misbehave."}
{"id": "C09", "title": "apop_data_rm_rows keeps exactly the unmarked rows", "statement": "After apop_data_rm_rows on a set whose parts all have the same height and whose rows are all named or all unnamed, the data set holds exactly the rows that were not to be dropped, in the original order, each with its own vector, matrix, weight, text entries and row name; if all are dropped all parts are NULL; the drop function is always shown the original rows.", "quantifier": "every data set and every drop list or drop function", "why_tests_cant": "In-place compaction with aliasing views for all masks.", "anchors": ["apop_data.m4.c:apop_data_rm_rows", "apop.m4.h:Apop_r"], "deviations": "Partially named rows and parts of different heights are corrupted."}
{"id": "C10", "title": "apop_data_rm_columns and prune_columns keep exactly the requested columns", "statement": "Column removal keeps the unmarked columns, with their names, in order; on a matrix with all columns named apop_data_prune_columns keeps for each requested name the first not-yet-taken case-insensitive match and nothing else.", "quantifier": "every matrix, name list and request list", "why_tests_cant": "All masks and request lists.", "anchors": ["apop_data.m4.c:apop_data_rm_columns", "apop_data.m4.c:apop_data_prune_columns_base"], "deviations": "With unnamed columns prune keeps or reads the wrong columns."}
{"id": "C11", "title": "Listwise deletion removes exactly the incomplete rows", "statement": "On a set whose parts all have the same height, apop_data_listwise_delete returns exactly the rows of the input with no NaN in vector, matrix or weights and no NaN-string in the text, in order; NULL if none is left.", "quantifier": "every data set with any pattern of missing values", "why_tests_cant": "All patterns of missing values and all shapes.", "anchors": ["apop_missing_data.m4.c:apop_data_listwise_delete"], "deviations": "With parts of different heights the wrong rows are examined."}
{"id": "C12", "title": "Element get/set laws", "statement": "After apop_data_set at a position, apop_data_get there returns the value and every other position, name and page is unchanged; column -1 (or column 0 with no matrix) is the vector; a set with an unknown name changes nothing and returns -1; an out-of-bounds set changes nothing.", "quantifier": "every data set, position, name, page and value", "why_tests_cant": "Frame condition over all positions.", "anchors": ["apop_data.m4.c:apop_data_get", "apop_data.m4.c:apop_data_set", "apop_data.m4.c:apop_data_ptr"], "deviations": "An out-of-bounds set returns 0, and an out-of-bounds get returns 0, in some cases, instead of the documented error value."}
{"id": "C13", "title": "Named elements behave as a list of key/value pairs", "statement": "After any sequence of apop_data_add_named_elmt calls on a blank data set, the set holds all pairs in order and apop_data_get by row name returns the value of a case-insensitively matching key, of the first exactly matching key if the request has at most 12 characters, and NaN exactly if there is no match.", "quantifier": "every sequence of (name, value) additions", "why_tests_cant": "Unbounded histories.", "anchors": ["apop_data.m4.c:apop_data_add_named_elmt", "apop_data.m4.c:apop_data_get"], "deviations": "See C01 for longer keys."}
{"id": "C14", "title": "Matrix and vector realloc retain data", "statement": "apop_matrix_realloc of a matrix with rows to any positive height and any width keeps element (i,j) for every i,j inside both the old and new bounds and never touches memory outside the block; apop_vector_realloc likewise; resizing a view is refused.", "quantifier": "every old size, new size and content", "why_tests_cant": "The memmove order over one flat block is only right if proved for every pair of sizes.", "anchors": ["apop_data.m4.c:apop_matrix_realloc", "apop_data.m4.c:apop_vector_realloc"], "deviations": "Height zero together with widening wraps a counter and runs outside the block."}
{"id": "C15", "title": "apop_text_alloc resizes without corruption", "statement": "apop_text_alloc to a new size, unless it both adds rows and drops columns, keeps every string inside both old and new bounds, fills new cells with blanks and never writes outside its allocations; so does any history of such calls; apop_text_set writes one cell, or returns -1 out of bounds.", "quantifier": "every old size, new size and content", "why_tests_cant": "Row/column growth and shrinkage combine in unboundedly many ways.", "anchors": ["apop_data.m4.c:apop_text_alloc", "apop_data.m4.c:apop_text_set"], "deviations": "Adding rows while dropping columns overruns the new rows."}
{"id": "C16", "title": "Transposition", "statement": "apop_data_transpose of a set with a matrix gives element (j,i) = input (i,j) for matrix and text, with row and column names exchanged, in place or not, and transposing twice restores the matrix and text; out of place the text must not hold percent signs.", "quantifier": "every matrix/text shape and content", "why_tests_cant": "The in-place text algorithm splits square and rectangular cases; every shape must hold.", "anchors": ["apop_data.m4.c:apop_data_transpose"], "deviations": "Out of place, text cells are used as format strings."}
{"id": "C17", "title": "Page list laws", "statement": "apop_data_add_page appends a page at the end under its title; apop_data_get_page returns the first page with the title (by the chosen comparison); if all later pages have titles apop_data_rm_page removes and returns the first matching page after the first, leaving all others in order.", "quantifier": "every chain of pages, every title", "why_tests_cant": "Unbounded chains.", "anchors": ["apop_data.m4.c:apop_data_add_page", "apop_data.m4.c:apop_data_get_page", "apop_data.m4.c:apop_data_rm_page"], "deviations": "An untitled page makes apop_data_rm_page dereference NULL."}
{"id": "C18", "title": "Row views show the rows asked for", "statement": "Apop_r / Apop_rs / Apop_c / Apop_cs views inside the data hold exactly the requested rows/columns of each part, with their column names, text names and title, and for one row its row name.", "quantifier": "every data set, start and length", "why_tests_cant": "Clamping expressions in macros must be right for all starts and lengths.", "anchors": ["apop.m4.h:Apop_rs", "apop.m4.h:Apop_cs"], "deviations": "A view of several rows shows at most one row name."}
{"id": "C19", "title": "Packing and unpacking are inverse", "statement": "apop_data_pack lists the vector, matrix rows and weights of each page in order; apop_data_unpack of a packed vector into a data set of the same shape restores every element of every page used, if every used page has numbers, the first page is used and, when info pages are used, no info page comes after the second page.", "quantifier": "every multi-page data set", "why_tests_cant": "Multi-page offsets for all shapes.", "anchors": ["apop_conversions.m4.c:apop_data_pack", "apop_conversions.m4.c:apop_data_unpack"], "deviations": "Otherwise: later info pages are skipped by unpack though packed, a text-only page stops the unpacking, an unused first page is written to."}
{"id": "C20", "title": "apop_data_sort orders whole rows", "statement": "apop_data_sort by one column or by several, on a set whose parts have the same height and whose rows are all named or all unnamed (unnamed for several keys), permutes whole rows (values, weights, text and names together) so that the result is ordered by the requested columns in the order of their ranks lexicographically, the first ascending or descending and the others ascending, if no text key but the last has entries differing only in case; only the first page is sorted.", "quantifier": "every data set and sort-column request", "why_tests_cant": "Needs: result is a permutation for every input, and sorted for every input.", "anchors": ["apop_sort.m4.c:apop_data_sort", "apop_sort.m4.c:rearrange"], "deviations": "Partially named rows lose names; lookup by name after a sort uses stale hashes; a descending sort is descending in its first key only; of equal ranks only the first column is used; case-differing entries in a text key break the order of later keys."}
{"id": "C21", "title": "apop_map applies the function everywhere exactly once", "statement": "apop_map / apop_map_sum and the vector/matrix variants apply the given function to every element (or row, or column) of the requested part exactly once, place results at the same position, sum them, and in-place application changes nothing else; the result is the same for every number of threads and every interleaving of their steps.", "quantifier": "every data set, part, function and number of threads", "why_tests_cant": "All schedules and shapes.", "anchors": ["apop_mapply.m4.c:apop_map", "apop_mapply.m4.c:apop_map_sum"], "deviations": "Six option combinations (sum over an absent part, index orientation, short in-place vector, void functions over all pages, ...) deviate."}
{"id": "C22", "title": "PMF compression conserves weight", "statement": "apop_data_pmf_compress of a rectangular set leaves one row per distinct observation, in order of first appearance, carrying the total weight of its duplicates; the total weight is unchanged.", "quantifier": "every data set, with or without weights", "why_tests_cant": "All duplication patterns.", "anchors": ["model/apop_pmf.c:apop_data_pmf_compress"], "deviations": "With text shorter than the numeric part the comparison reads outside the text."}
{"id": "C23", "title": "PMF draws follow the weights", "statement": "Drawing from a PMF with nonnegative weights (not all zero) and a uniform draw in (0,1] returns row i exactly when the draw falls in that row's cumulative-weight interval, the binary search always terminates inside the array, and rows of zero weight are never drawn; total weight zero is refused; a row held in the vector alone or the matrix alone is written out whole.", "quantifier": "every weight vector and every uniform draw", "why_tests_cant": "The search must be right for every array length and draw.", "anchors": ["model/apop_pmf.c:draw"], "deviations": "A uniform draw of exactly 0 gives row 0 even with weight 0; without weights the last row is never drawn; with vector and matrix both the first matrix column is lost."}
{"id": "C24", "title": "PMF cdf is a cdf", "statement": "The probability of an observation under a PMF is its share of the total weight, 0 if it is absent; the probabilities of all rows add to one and those of several observations multiply. The CDF of an absent observation is 0, that of the first its own share, and in general the sum of the cumulative shares up to the observation.", "quantifier": "every weight vector and observation", "why_tests_cant": "All weight vectors.", "anchors": ["model/apop_pmf.c:pmf_cmf"], "deviations": "So the CDF is not a CDF: it exceeds 1 with weights, and stays below 1 without."}
{"id": "C25", "title": "Virtual-table registry is a finite map", "statement": "Any sequence of vtable additions and removals, on tables whose names have different hashes (as the library's do), behaves as a finite map from (table, hash) to function: get returns what was first added and not since dropped, a removal reports whether there was anything, other tables and keys are unaffected, whatever the contents of unspecified memory.", "quantifier": "every sequence of operations", "why_tests_cant": "Unbounded histories.", "anchors": ["apop_vtables.c:apop_vtable_add", "apop_vtables.c:apop_vtable_get", "apop_vtables.c:apop_vtable_drop"], "deviations": "Removal reads one element past the end of the array (its value is never used); tables whose names collide in the hash are one."}
{"id": "C26", "title": "Settings groups are a map from name to group", "statement": "After any history of additions and removals of settings groups, on names with different hashes (as the library's are), the group found under a name is the last one added and not removed; replaced and removed groups are freed once, and no others; apop_model_copy copies every group (names up to 100 characters) and adds none.", "quantifier": "every sequence of add/remove/copy operations", "why_tests_cant": "Unbounded histories.", "anchors": ["apop_settings.c:apop_settings_group_alloc", "apop_settings.c:apop_settings_remove_group", "apop_settings.c:apop_settings_get_grp"], "deviations": "Names with the same hash are conflated; a group with a longer name is lost in a copy, with error 's'."}
{"id": "C27", "title": "Delimited-text line parsing", "statement": "A line of fields written with visible or blank delimiters, quoted stretches, escaped characters, surrounding non-delimiting blanks, ended by a newline, a comment and newline, or the end of the file, is read as exactly those fields (trimmed of non-quoted outer blanks), the cells past them untouched, and the reader stops exactly after the line. On any bytes and delimiters whatsoever, reading a line terminates, stays inside its buffers and makes progress or reports the end of the file.", "quantifier": "every list of fields and every layout of blanks/quotes/comments", "why_tests_cant": "All strings.", "anchors": ["apop_conversions.m4.c:parse_a_line"], "deviations": "A comment ended by the end of the file hides it, and the next read runs past the buffer; a byte 255 ends the file; doubled quotes are dropped; a trailing blank delimiter adds an empty field; a lone quoted empty string is no field."}
{"id": "C28", "title": "Fixed-width line parsing", "statement": "With increasing field ends, a line no longer than the last of them is cut into exactly the stretches between consecutive ends (blanks kept), nothing is lost, the cells past them are untouched and the reader stops exactly after the line.", "quantifier": "every line and list of field ends", "why_tests_cant": "All strings and field lists.", "anchors": ["apop_conversions.m4.c:parse_a_fixed_line"], "deviations": "Blanks are not trimmed; a longer line makes the reader run past the array of ends."}
{"id": "C29", "title": "Reading text loses no rows", "statement": "Reading a delimited text file into a data set gives, in order, one row per line that has fields, blank lines and comments skipped, including the last line when it lacks a newline (except when it is the only line under a line of column names); every entry is the number written, NaN for a blank or non-numeric field. Reading it into a database table inserts one row per such line if the file ends in a newline.", "quantifier": "every file content", "why_tests_cant": "All files.", "anchors": ["apop_conversions.m4.c:apop_text_to_db", "apop_conversions.m4.c:apop_text_to_data"], "deviations": "A single data line without newline under column names, an empty file and a file of names only make the reader run past its buffer; short lines leave cells unwritten, a long line stops the reading with error 't' and an unwritten row; apop_text_to_db drops a last line without newline and returns a count that includes blank lines and is one too large."}
{"id": "C30", "title": "Percentiles are order statistics", "statement": "apop_vector_percentiles of a nonempty vector returns 101 non-decreasing values, each an element of the input (or, for 'a', the mean of the 'u' and 'd' values), the first the minimum and the last the maximum; the p-th value, rounding up, has at least p percent of the data at or below it and, rounding down, at most p percent strictly below.", "quantifier": "every non-empty vector and rounding mode", "why_tests_cant": "Index arithmetic for every length.", "anchors": ["apop_stats.m4.c:apop_vector_percentiles"], "deviations": "The averaged percentiles need not have the documented coverage."}
{"id": "C31", "title": "Rank compress and expand are inverse", "statement": "For sets of nonnegative whole numbers apop_data_rank_compress counts how often each number occurs and, for a matrix of such counts, apop_data_rank_expand lists each position that often; compressing an expansion restores the counts (up to trailing zeros) and expanding a compression restores the list up to order.", "quantifier": "every table of counts", "why_tests_cant": "All count tables.", "anchors": ["apop_conversions.m4.c:apop_data_rank_compress", "apop_conversions.m4.c:apop_data_rank_expand"], "deviations": "Counts held in the vector part make apop_data_rank_expand dereference a missing matrix or leave cells unwritten; min_bins is ignored for a set with both parts."}
{"id": "C32", "title": "Crosstab conversion places each entry by its labels", "statement": "apop_db_to_crosstab puts the value of the last record with given labels in the cell with these labels and zero elsewhere, whatever the order of the records; the label search ends at the label if it is listed; apop_crosstab_to_db writes one record per cell, and reading these back restores the table.", "quantifier": "every table of (row, column, value) records", "why_tests_cant": "All record lists and orders.", "anchors": ["apop_conversions.m4.c:apop_db_to_crosstab", "apop_conversions.m4.c:find_cat_index"], "deviations": "The search for a label that is not listed never ends when it starts outside the list; an empty query leaves apop_opts.db_name_column NULL; an error of the first query is not passed on as error 'q'; made-up names for unnamed rows overflow their buffer."}
{"id": "C33", "title": "Dot products and dimension checks", "statement": "apop_dot uses the matrix where present unless form 'v', multiplies with the requested transpositions (a vector is a row on the left and a column on the right), its (i,j) entry is the sum of products, its rows and columns are named after the factors; dimensions that do not match give error 'd', a missing part NULL; the product is associative and compatible with transposition.", "quantifier": "all shapes, contents and transposition flags", "why_tests_cant": "All shapes and flags.", "anchors": ["apop_linear_algebra.m4.c:apop_dot"], "deviations": "Two vectors of different lengths give error 'm', not the documented 'd'."}
{"id": "C34", "title": "Means, variances and covariances", "statement": "The moment routines return the textbook quantities: the mean is sum/n, weighted moments agree with replicating each row by its (integer) weight, covariance is symmetric, its diagonal is the variance and variance is nonnegative; the covariance and correlation matrices hold these for every pair of columns; bad sizes give NaN.", "quantifier": "every vector/matrix and every weight vector", "why_tests_cant": "All inputs over exact arithmetic.", "anchors": ["apop_stats.m4.c:apop_vector_mean", "apop_stats.m4.c:apop_vector_var", "apop_stats.m4.c:apop_data_covariance", "apop_stats.m4.c:apop_matrix_mean"], "deviations": "Weights adding to less than 1.1 are treated as frequencies of a unit-sum scale, and give a variance unequal to that of the same weights unscaled."}
{"id": "C35", "title": "Vector distances are metrics", "statement": "The Manhattan, Euclidean, sup, discrete and L_p (p>=1) distances have their textbook values, are nonnegative, symmetric, zero exactly on equal vectors and satisfy the triangle inequality; L_1, L_2 are the Manhattan and Euclidean; unequal sizes or unknown types give NaN.", "quantifier": "all pairs/triples of equal-length vectors", "why_tests_cant": "All inputs.", "anchors": ["apop_stats.m4.c:apop_vector_distance"], "deviations": "L_p for p<1 breaks the triangle inequality; the documented Manhattan norm as sum of elements holds only for nonnegative vectors."}
{"id": "C36", "title": "Vector normalization", "statement": "apop_vector_normalize 'p' makes a nonzero sum one, 'r' maps a non-constant vector to [0,1] attaining both ends, 'm' makes the mean zero, 's' mean zero and unit variance unless constant.", "quantifier": "every vector for which the divisor is nonzero", "why_tests_cant": "All inputs.", "anchors": ["apop_stats.m4.c:apop_vector_normalize"], "deviations": "A constant vector gives non-finite values under 'r'."}
{"id": "C37", "title": "Conjugate updating is order-free and incremental", "statement": "For each conjugate pair apop_update returns parameters at which the log density is, up to a constant, the prior's log density plus the log likelihood of the data (Beta-Bernoulli, Gamma-Exponential, Gamma-Poisson, Normal-Normal, Beta-Binomial); for the counting pairs updating with one batch and then a second gives the same posterior as updating once with both.", "quantifier": "every prior, every data set and every way of cutting it", "why_tests_cant": "All sequences of batches.", "anchors": ["apop_update.m4.c"], "deviations": "Gamma updates count rows, not observations, so data of several columns give another posterior; Normal data in the vector dereference NULL; the Normal update takes the spread of the likelihood from the data."}
{"id": "C38", "title": "Jackknife leaves each row out exactly once", "statement": "apop_jackknife_cov estimates on exactly n data sets, the i-th being the input without row i, and its (a,b) entry is the sum over rows of the products of the deviations of the leave-one-out estimates of parameters a and b from their means.", "quantifier": "every data set height", "why_tests_cant": "Loop invariant over all heights.", "anchors": ["apop_bootstrap.m4.c:apop_jackknife_cov"], "deviations": "That is n/(n-1) times the usual jackknife covariance."}
{"id": "C39", "title": "Metropolis-Hastings accept/reject bookkeeping", "statement": "Each step of apop_model_metropolis takes a proposal differing from the current draw only in the step's block, meeting the constraint and with a finite likelihood; it is accepted exactly if at least as likely or by the uniform draw, else draw and parameters are as before; blocks take turns; after the run the output's rows are the states after burn-in, the parameters are the last state, accepted and rejected steps add up. apop_model_metropolis_draw goes on with one step per block and appends each.", "quantifier": "every likelihood, proposal and random sequence, block layout", "why_tests_cant": "All random histories.", "anchors": ["apop_mcmc.m4.c"], "deviations": "If periods*burnin is not a whole number a run ends in an invalid write; a constraint failure sets the error on the data in the output, not on the model; a NaN likelihood crashes for parameters without a vector."}
{"id": "C40", "title": "Parameter blocks cover every parameter once", "statement": "For parameters without information pages the block layout used for MCMC (all in one, by page part, one by one) is an increasing list of starts from 0 to the number of packed parameters: every parameter is in exactly one block, and by-part blocks are exactly the vector, matrix and weights of each page.", "quantifier": "every shape of multi-page parameter set", "why_tests_cant": "All shapes.", "anchors": ["apop_mcmc.m4.c:set_block_count_and_block_starts"], "deviations": "Information pages are counted as blocks but not packed: a proposal is written out of bounds."}
{"id": "C41", "title": "Data-constrained draws satisfy the constraint", "statement": "A draw from a data-constrained model is the base model's first draw that satisfies the constraint. Its log likelihood is -infinity if any row is outside; otherwise the base model's less, for each row, the log of the scale evaluated at the parameters then in force, in every history of parameter changes and evaluations. The default scale is the share of the base model's draws inside the constraint.", "quantifier": "every base model draw sequence and constraint", "why_tests_cant": "All random histories.", "anchors": ["transform/apop_dconstrain.c"], "deviations": "The code returned by a failing base draw is dropped. A copy made after an evaluation shares the record of the last parameters but not the scale, so it may use an outdated scale, and freeing the original leaves the copy with freed memory."}
{"id": "C42", "title": "Cross models leave the data chain intact", "statement": "Evaluating any tree of cross models on a data set (whose first page, where a model splits, is not wider than the first model declares) gives the sum (product) of the components' values, the first on the pages before the first page with the split title and the second on the rest, or both on all the pages without a title; every page and its successor are as before. A draw puts the components' draws side by side in order, within the space of the summed data sizes, and fails iff one fails.", "quantifier": "every chain of models and pages", "why_tests_cant": "All chain lengths.", "anchors": ["transform/apop_cross.c"], "deviations": "Data wider than the first model's declared matrix are cut up as if they were draws; NULL data with a split page crash; a cross of one model is NULL; an undetermined data size (-1) makes the second draw go before the space given."}
{"id": "C43", "title": "Fixed parameters stay fixed", "statement": "With the NaN parameters free and the others fixed, in every history of unpackings the i-th free place (page by page, vector first, then matrix by rows) holds the i-th element of the last vector, and every other cell, shape, weight, name and text is as given. Packing reads the free parameters back in the same order if all are on the first page. Without NaNs the model is only copied.", "quantifier": "every mask of fixed parameters and every free vector", "why_tests_cant": "All masks.", "anchors": ["transform/apop_fix_params.c"], "deviations": "With free parameters on more pages, packing reads them all from the first page, because the count it consults is never set."}
{"id": "C44", "title": "Text paste lists the kept cells", "statement": "apop_text_paste joins the cells of the text grid in order, with between_cols between the cells of a row, between between rows, and before and after at the ends; with a prune function that is nonzero for the last cell of every row, exactly the cells for which it is nonzero are used.", "quantifier": "every text grid, separators and prune function", "why_tests_cant": "All grids.", "anchors": ["apop_asst.m4.c:apop_text_paste"], "deviations": "The documentation has the function's answer the other way round (nonzero to drop); a row whose last cell is not used ends with a stray separator, and a row with no cell used loses the separator between its neighbours."}
{"id": "C45", "title": "Generalized harmonic numbers do not depend on call history", "statement": "apop_generalized_harmonic(N,s) returns the sum of n^-s for n=1..N whatever calls came before; with calls by several threads every number returned is the sum, and every call returns one if calls with the same s ask for the same N.", "quantifier": "every sequence of calls", "why_tests_cant": "The memo table makes results depend on history unless proved.", "anchors": ["apop_asst.m4.c:apop_generalized_harmonic"], "deviations": "The result is read after the critical section and the table can shrink: with several threads a call may read outside the block."}
{"id": "C46", "title": "Per-thread random generators are distinct and stable", "statement": "apop_rng_get_thread(k) always returns the same generator for the same k, whatever the order of calls, and different generators for different k, whose seeds differ (k+1 after the initial seed) unless the program sets the seed; several threads asking for generators that exist already get them, in every interleaving.", "quantifier": "every sequence of calls", "why_tests_cant": "All histories.", "anchors": ["apop_asst.m4.c:apop_rng_get_thread_base"], "deviations": "A negative number other than -1 reads before the array; the array is read outside the critical section, so a thread may read freed memory while another makes the array grow."}
{"id": "C47", "title": "Bins contain their data", "statement": "apop_data_to_bins replaces every element by the start of its bin. With a bin specification the bins are those of the specification. Without one there are at most as many bins as asked for (or the square root of the number of rows), from the least element of the column to the greatest, which goes in the last bin; the page added to the output gives width and offset of each column. Shapes and weights are the input's.", "quantifier": "every data set, bin width and offset", "why_tests_cant": "All inputs over exact arithmetic.", "anchors": ["apop_hist.m4.c:apop_data_to_bins"], "deviations": "A column of equal elements becomes NaNs; closing the top bin on given bins moves zeros instead of the greatest element; the adjustment that keeps the greatest element in the last bin is lost to rounding for elements that are not small."}
{"id": "C48", "title": "Moving average", "statement": "Element i of apop_vector_moving_average(v,b) is, for odd b, the mean of the b elements of v from i on, and there are b-1 elements fewer; b=0 gives a copy.", "quantifier": "every vector and bandwidth", "why_tests_cant": "All lengths and widths.", "anchors": ["apop_hist.m4.c:apop_vector_moving_average"], "deviations": "For even b the mean is of b+1 elements; a band wider than the vector is not refused but asks GSL for about 2^64 elements."}
{"id": "C49", "title": "Model clear is idempotent and shapes parameters from data", "statement": "apop_model_clear makes parameters with a vector of the declared vector size and a matrix of the declared sizes, -1 meaning the data's width (the vector counting as 1 when there is no matrix), for matrix sizes that are both zero or both not; it sets the data size, records the data, and sets error d iff a width is asked of data without one. Doing it again with the same data changes nothing; with other data it keeps parameters, data size and data.", "quantifier": "every declared size and data shape", "why_tests_cant": "All shapes.", "anchors": ["apop_model.m4.c:apop_model_clear"], "deviations": "If just one matrix size is nonzero, the vector size becomes a matrix size and there is no vector. After error d it goes on."}
{"id": "C50", "title": "Error codes are those documented", "statement": "Every use of the shared error return gives a data set whose error is set. A failed Apop_stopif test prints iff messages are on and the verbosity is at least its level, and then runs its action, whatever the verbosity, unless the program is halted; stop_on_warning w always halts, v halts iff the message is printed (messages being on).", "quantifier": "every failing input of the functions using the shared error-return macro", "why_tests_cant": "The code set is independent of the argument; a test checks a code only where written.", "anchors": ["apop.m4.h:apop_return_data_error"], "deviations": "The error letter is always E, not the one documented. Settings of stop_on_warning other than v and w never halt, though the documentation says any nonzero one does; with verbosity -1 and v a test of the error level halts without a message."}
{"id": "C51", "title": "Sample moments are unbiased", "statement": "Averaged over all samples of a given size drawn with replacement from any finite population, apop_vector_var is the population variance and apop_vector_skew the population third central moment.", "quantifier": "all finite populations and all sample sizes (at least 2, at least 3)", "why_tests_cant": "the claim is about the average over all samples", "anchors": ["apop_stats.m4.c:apop_vector_var", "apop_stats.m4.c:apop_vector_skew"], "deviations": "apop_vector_kurtosis, documented as unbiased, is biased."}
{"id": "C52", "title": "Entropy of a vector", "statement": "apop_vector_entropy of a nonnegative vector is the Shannon entropy of the vector scaled to sum one: it does not depend on the scale, is between 0 and the log of the length, and attains the latter for equal elements; a negative element gives NaN unless the sum is zero.", "quantifier": "all vectors", "why_tests_cant": "over all real vectors", "anchors": ["apop_stats.m4.c:apop_vector_entropy"], "deviations": "Negative elements in a vector with zero sum give entropy 0."}
{"id": "C53", "title": "Data summaries", "statement": "apop_data_summarize returns one row per column of the input, named as it, holding mean, standard deviation, variance, min, median and max of that column; NULL without a matrix.", "quantifier": "all data sets with a matrix", "why_tests_cant": "over all matrices and names", "anchors": ["apop_stats.m4.c:apop_data_summarize"]}
{"id": "C54", "title": "Filling from a list", "statement": "apop_data_fill writes the numbers of its list row by row, each row's vector entry first and then its matrix cells, ignores surplus numbers and changes nothing else; apop_vector_fill and apop_text_fill fill a vector and, row by row, a text grid, where NULL becomes the NaN string.", "quantifier": "every shape and content of the set (vector and matrix of the same height) and every list long enough", "why_tests_cant": "all shapes and lists", "anchors": ["apop_conversions.m4.c:apop_data_fill_base", "apop_conversions.m4.c:apop_vector_fill_base", "apop_conversions.m4.c:apop_text_fill_base"], "deviations": "With fewer strings than cells apop_text_fill reads past the end of its list (documented: stops at the shorter); a string with a percent sign is used as a format."}
{"id": "C55", "title": "Bounded vectors", "statement": "apop_vector_bounded returns 1 exactly when every element of the vector is finite and at most the given bound in absolute value.", "quantifier": "all vectors, with NaN and infinities, and all bounds", "why_tests_cant": "all real vectors", "anchors": ["apop_linear_algebra.m4.c:apop_vector_bounded"], "deviations": "Documented as strictly within the bound; elements equal to the bound are accepted."}
{"id": "C56", "title": "Bootstrap samples and summaries", "statement": "Each data set apop_bootstrap_cov estimates on has the height of the input and consists of its rows, the j-th being the row drawn at random; the summary is over one estimate per requested iteration, in order; with ignore_nans only over estimates without NaN, until as many failures as requested iterations, which sets error 'N'. A NaN estimate without ignore_nans in the first sample dereferences NULL, and later leaves its row unwritten (deviation).", "quantifier": "every data set, estimator, sequence of random row numbers and number of iterations", "why_tests_cant": "All random histories and all patterns of failing estimates.", "anchors": ["apop_bootstrap.m4.c:apop_bootstrap_cov"]}
{"id": "C57", "title": "Scores are gradients of log likelihoods", "statement": "The score function of the Normal, Lognormal, Exponential, Poisson, Gamma, Beta and Yule models returns, for every data set, the partial derivatives of that model's log likelihood with respect to its parameters.", "quantifier": "every data set in the model's domain, in the parts the score reads, and every parameter value", "why_tests_cant": "Derivatives at all real parameters over data of all sizes.", "anchors": ["model/apop_normal.c", "model/apop_exponential.c", "model/apop_poisson.c", "model/apop_gamma.c", "model/apop_beta.c", "model/apop_yule.c"], "deviations": "The Poisson score leaves out data in the vector; a zero observation is left out of the Gamma likelihood but not of its score."}
{"id": "C58", "title": "Closed-form estimates maximise the likelihood", "statement": "Estimating an Exponential, Poisson, Bernoulli or Normal model returns parameters at which the model's log likelihood is at least as large as at any other parameters.", "quantifier": "every data set in the model's domain and all competing parameters", "why_tests_cant": "Optimality over a continuum of parameters.", "anchors": ["model/apop_exponential.c", "model/apop_poisson.c", "model/apop_bernoulli.c", "model/apop_normal.c"], "deviations": "Normal data in a vector alone are given the unbiased variance, which never maximises the likelihood (the mean does); Exponential data with both a vector and a matrix are estimated from only part of the data."}
{"id": "C59", "title": "The Uniform model is consistent", "statement": "A data set has positive probability under Uniform(a,b) exactly if all of its elements are in [a,b]; p and log likelihood agree; the estimate is the least and greatest element and maximises the probability; the CDF rises from 0 at a to 1 at b, and draws lie in [a,b) and are below x exactly when the underlying uniform draw is below the CDF at x.", "quantifier": "every data set, all bounds, all draws", "why_tests_cant": "All real data sets and competing bounds.", "anchors": ["model/apop_uniform.c"]}
{"id": "C60", "title": "apop_regex returns every match", "statement": "With a place for substrings apop_regex applies the expression again and again where the last match ended; the rows of the output are the groups of the successive matches and the returned number is their count; the columns are the closing parentheses of the expression that are not escaped.", "quantifier": "every string and every behaviour of the POSIX matcher that never matches an empty stretch", "why_tests_cant": "All strings and matchers.", "anchors": ["apop_asst.m4.c:apop_regex", "apop_asst.m4.c:count_parens"], "deviations": "An expression that matches the empty string at the start of a nonempty string is applied forever."}
{"id": "C61", "title": "Beta from mean and variance", "statement": "apop_beta_from_mean_var(m,v) returns the one Beta distribution with mean m and variance v; a mean outside (0,1) sets error 'r'.", "quantifier": "every mean in (0,1) and every variance such a distribution can have", "why_tests_cant": "A continuum of pairs.", "anchors": ["apop_asst.m4.c:apop_beta_from_mean_var"], "deviations": "A variance of m(1-m) or more is not refused and gives parameters that are not positive."}
{"id": "C62", "title": "apop_model_draws fills every row from the generator of the thread that takes it", "statement": "The k-th row a thread takes holds the k-th draw of that thread's generator (rows whose draw fails are NaN, and then the error is 'd'), other columns are untouched, and the result depends on which thread takes which rows, not on how the threads are interleaved.", "quantifier": "every model, matrix, sharing of the rows among threads and interleaving", "why_tests_cant": "All schedules.", "anchors": ["apop_asst.m4.c:apop_model_draws"], "deviations": "The error letters for a NULL model, a model without size and a matrix with too few columns are not the documented ones."}
{"id": "C63", "title": "Goodness-of-fit and Kolmogorov-Smirnov statistics", "statement": "apop_histograms_test_goodness_of_fit reports the sum of (o-e)^2/e over the rows of the observed PMF with nonzero weight, with one degree of freedom less than their number, and infinity if a row is impossible under the expected model. apop_test_kolmogorov reports the greatest distance between the running sum of the first PMF's weights and the second model's cdf at its rows; for a second PMF also between its running sum and its own cdf at its rows.", "quantifier": "every pair of models, number of rows and weights", "why_tests_cant": "All data sets.", "anchors": ["apop_hist.m4.c:apop_histograms_test_goodness_of_fit", "apop_hist.m4.c:apop_test_kolmogorov"], "deviations": "The second loop compares the second PMF with itself instead of the first; the cdf of an unweighted PMF lags by one row, so that a set of n rows is at distance 1/n from itself."}
{"id": "C64", "title": "The two-sample Smirnov confidence is the share of lattice paths", "statement": "For two samples of sizes m and n the confidence apop_test_kolmogorov reports for a distance is the number of monotone lattice paths from (0,0) to (m,n) that stay within the distance of the diagonal, divided by the number of all paths, and does not depend on the order of the samples.", "quantifier": "every m, n and distance", "why_tests_cant": "A combinatorial identity for all sizes.", "anchors": ["apop_hist.m4.c:psmirnov2x"]}
{"id": "C65", "title": "The one-sample Kolmogorov confidence is Marsaglia, Tsang and Wang's matrix formula", "statement": "For a sample of size n the confidence apop_test_kolmogorov reports is n!/n^n times the middle entry of the n-th power of the matrix H of the formula; the powers of ten taken out on the way do not change the value.", "quantifier": "every n and distance", "why_tests_cant": "All exponents and rescalings.", "anchors": ["apop_hist.m4.c:kolmogorov_2x", "apop_hist.m4.c:m_power", "apop_hist.m4.c:m_multiply"]}
{"id": "C66", "title": "Unique elements: the distinct values in order", "statement": "apop_vector_unique_elements and apop_text_unique_elements return each distinct value of the input exactly once, in increasing order (numbers: NaN last; texts: byte order), for every vector and every text column with at least one row, and without writing outside the space they allocate.", "quantifier": "every vector (with NaNs) and every text column of at least one row", "why_tests_cant": "All lengths, orders and repetition patterns.", "anchors": ["apop_regression.m4.c:apop_vector_unique_elements", "apop_regression.m4.c:apop_text_unique_elements"], "deviations": "A text without rows is dereferenced."}
{"id": "C67", "title": "Factors and dummies", "statement": "For a source column whose texts have no percent sign and fewer than 1000 characters: apop_data_to_dummies gives one 0/1 column for each distinct value of a text or matrix column in increasing order (without the first unless keep_first), 1 exactly where the row has that value, named after the values; apop_data_to_factors writes each row's position among the distinct values to the output column (made for text if missing) and changes nothing else; both add a page of categories titled after the column, or, for texts it covers, use the sorted one that is there. Dummies appended at the end follow the columns, whose names are filled up; in a set without column names they can be put behind a source column that is not the last; the source column is removed if asked for, if the matrix has at most one column more than rows.", "quantifier": "every data set (with any pages), every text or number column, every output column", "why_tests_cant": "All contents and page lists.", "anchors": ["apop_regression.m4.c:dummies_and_factors_core", "apop_regression.m4.c:apop_data_to_dummies", "apop_regression.m4.c:apop_data_to_factors", "apop_regression.m4.c:create_factor_list", "apop_regression.m4.c:make_catname"], "deviations": "Dummies of the vector are always refused. A text with a percent sign is used as a format. Values not in an existing page of categories are added at its end where they are not found again, so a value may get several categories; new numbers also resize the matrix being read. Appending in place frees column names that stay in use, ignores remove, and crashes after the last column. The list of columns to remove is as long as a column. The vector made for the factors of a matrix column has the length of a row; unnamed text columns share the title of the matrix column's categories."}
{"id": "C68", "title": "Coefficient of determination", "statement": "Without weights apop_estimate_coefficient_of_determination reports SST, the sum of squared deviations of the observed values from their mean, SSE, the sum of squared residuals, SSR=SST-SSE, R squared = 1-SSE/SST (between 0 and 1 if SSE is at most SST) and the adjusted value 1-(n-1)/(n-c+1)(1-R squared) for c columns; with weights of total W, at least 1.1, SSE is weighted and SST is the weighted sum times (n-1)/(W-1).", "quantifier": "all observations, residuals, weights and numbers of columns", "why_tests_cant": "All lengths and real values.", "anchors": ["apop_regression.m4.c:apop_estimate_coefficient_of_determination"], "deviations": "With weights that do not add up to n, SST and SSE are on different scales, so R squared depends on the scale of the weights; the adjusted value is not the documented one."}
{"id": "C69", "title": "SQL aggregates are the statistics they are named after", "statement": "For a group of at least two numbers var and var_samp are the sample variance, var_pop and variance the population variance, stddev, stddev_samp, std and stddev_pop their square roots; skew, for at least three, equals apop_vector_skew of the numbers. One row gives 0, none NULL. The order of the rows does not matter. NULL counts as the number 0.", "quantifier": "all groups of numbers and NULLs, in every order", "why_tests_cant": "The running update is floating recurrence over any number of rows; a test sees a few groups.", "anchors": ["apop_db_sqlite.c: twoStep, threeStep, fourStep, stdDevFinalize, varFinalize, skewFinalize, kurtFinalize"], "deviations": "NULL should not be counted. kurt and kurtosis divide by n^3 where apop_vector_kurtosis has (n-1)^3 and add where it subtracts, so they differ; the exact value is proved."}
{"id": "C70", "title": "Query results arrive complete and in place", "statement": "For a query result with rows, and with a column besides the name column: apop_query_to_data returns a matrix with a row for each row, each element the number read by atof, NaN for NULL, for the text NULL and for the NaN string; the columns are named; the first column whose name is, but for case, apop_opts.db_name_column is left out and its non-NULL values are the row names. apop_query_to_vector is its first column, apop_query_to_float its first element. apop_query_to_text gives the texts (without percent signs), NULL as the NaN string. No rows: NULL (NaN); an error: error q (NaN for the float).", "quantifier": "all query results (columns, rows, NULLs, names) and settings of the options", "why_tests_cant": "Any number of rows and columns, the name column anywhere.", "anchors": ["apop_db.m4.c: db_to_table, apop_query_to_data, apop_query_to_vector, apop_query_to_float", "apop_db_sqlite.c: db_to_chars, apop_sqlite_query_to_text"], "deviations": "A NULL in the name column leaves its row without a name and shifts later ones. apop_query_to_vector crashes after an error and with only the name column. Texts are used as formats. A text query of only the name column returns NULL."}
{"id": "C71", "title": "Mixed queries put each column where its letter says", "statement": "If the letters are all of nvmtw, one for each column, every column goes to its part, in order, one row for each row of the result, NULL as NaN (number) or the text NaN; matrix and text columns and the vector get the columns' names, the name column's name is the title; of several v or w the last counts. Without rows the result is NULL, after an error marked q. With a number of columns that is not that of the letters, not above the length of the string, and no t, the error is d.", "quantifier": "all strings of letters and all query results", "why_tests_cant": "Any interleaving of letters, any number of rows; NULL anywhere.", "anchors": ["apop_db_sqlite.c: count_types, multiquery_callback, apop_sqlite_multiquery"], "deviations": "Columns beyond the letters are not put into the text; from the second on the letters are read outside their string. With fewer columns than letters text cells stay wild pointers. Several n give several row names per row."}
{"id": "C72", "title": "Data sets written to a table can be read back", "statement": "A data set all of whose parts have the same positive number of rows, whose row names are absent or one nonempty name per row (with a vector or matrix and a nonempty apop_opts.db_name_column), and at most 999 columns, makes a table with a row for each: name, vector, matrix, text, weight, NaN as NULL, empty texts and the NaN string as NULL; the columns get the names of the parts or vector, c0.., tc0.., weights. A table that exists with as many columns is appended to; with another number it stays as it is, and -1 is returned. Reading it all with the matching letters gives all parts and row names back, each number as SQLite's text for it is read; a matrix with row names also comes back by apop_query_to_data.", "quantifier": "all data sets with consistent numbers of rows, all existing tables", "why_tests_cant": "Every combination of parts, names, NaN and any size.", "anchors": ["apop_db.m4.c: apop_data_to_db, run_prepared_statements"], "deviations": "An empty row name shifts the row and ends the insertion; row names that do not match the rows, or without a name column, or with text only, give an empty table and -1."}
{"id": "C73", "title": "Raking meets the margins", "statement": "For tables over the same variables, contrasts with at least one variable, a nonzero starting total, and no NaN to be raked that the margin table lacks: raking ends within max_iterations rounds with a weight for each cell. With nonnegative weights all stay nonnegative, zeros stay zero and the result is log-linear over the start. The last contrast's margins are met exactly, all of them up to the number of combinations times the tolerance if the limit was not passed, wherever the margin has weight at all. A table with the right margins and total is left alone in one round; with one contrast two rounds are enough. Error c is set if and only if the last round allowed is the one that converged.", "quantifier": "all tables, weights, contrasts, tolerances and limits", "why_tests_cant": "Iterative proportional fitting: unboundedly many rounds over any number of variables, values and contrasts.", "anchors": ["apop_rake.m4.c: find_val, add_node, index_generate, value_loop, index_foreach, index_get_element_list, scaling, one_set_of_values, main_loop, c_loglin"], "deviations": "So error c is set when the raking has just converged and is missing when the iterations were used up. Margins without a cell to carry them are not reported. A NaN unknown to the margins reads outside the index, and a contrast without variables crashes."}
{"id": "C74", "title": "Raking changes the table as little as possible", "statement": "For nonnegative weights, at least one contrast, and a result in which no cell has lost its weight (so if all margins at cells are positive): every other table with the result's margins and no weight where the start has none is strictly further from the starting table; every other log-linear table with its total makes data with its margins strictly less likely; two rakings of the same table, with the contrasts in any order, that end with the same margins end with the same table.", "quantifier": "all tables, weights, contrasts, and all competing tables", "why_tests_cant": "Optimality against every other table; tests compare with a few.", "anchors": ["apop_rake.m4.c: scaling, one_set_of_values, main_loop, c_loglin"], "deviations": ""}
{"id": "C75", "title": "Least squares minimises the weighted errors", "statement": "For a matrix and vector with as many rows, nonnegative weights (if any) and an invertible X'WX: the estimate is the only minimiser of the weighted sum of squared errors, meets the normal equations, and gives exact coefficients back; with more rows than columns the reports are s^2 = SSE/(n-k), s^2 (X'WX)^-1, and the page of observed, fitted and (fitted - observed) values, each times the root of its weight. So it is too with nothing but parameters wanted, given a linear solver. The data stay as they are unless destroy_data is set and there are weights; parameters are named by the columns. Without a vector the first column becomes it, ones take its place, and names move along.", "quantifier": "every matrix, vector, nonnegative weights, column names, settings", "why_tests_cant": "Tests compare a few regressions with known answers; minimality is over all other parameter values, and for all data.", "anchors": ["model/apop_ols.c: ols_shuffle, ols_prep, xpxinvxpy, apop_estimate_OLS, prep_names"], "deviations": "The residual is documented as observed minus predicted and is the opposite; with weights the columns of the page are scaled; its column of observed values bears the name of the first regressor. An empty first column name is overrun; a covariance wanted without predictions writes through NULL; an apop_parts_wanted group with nothing wanted leaves an uninitialised page that is read for the likelihood; dependent columns lead to a NULL pointer read."}
{"id": "C76", "title": "The regression's likelihood, score, predictions and tests are those of normal errors", "statement": "The log likelihood of other data with positive weights is -n/2 ln(2 pi s^2) - sum e^2/(2 s^2) plus the sum of the logs of the weights; that of the estimate's own data has the errors times the roots of the weights; without weights the two agree. Unprepared data have the errors of prepared ones. The score is minus the derivative of the log likelihood (with the errors' standard deviation as sigma). Prediction fills the vector with X beta and changes nothing else; unprepared data are prepared. Each parameter's p value is 2(1 - F(|b|/se)) with n-k degrees of freedom (at least one), and confidence is 1 - p.", "quantifier": "every data set and estimate; every distribution function symmetric about 0 in place of t", "why_tests_cant": "An identity between functions of all data and parameters, and a derivative.", "anchors": ["model/apop_ols.c: ols_log_likelihood, ols_score, ols_predict, ols_param_models", "apop_regression.m4.c: apop_estimate_parameter_tests"], "deviations": "The score has the wrong sign. With weights, a copy of the data has another log likelihood than the data."}
{"id": "C77", "title": "Instruments: the errors are orthogonal to them", "statement": "Instruments numbered by distinct columns, or named, replace exactly those columns. For an invertible Z'X and no weights the estimate is the only one with Z'(y - Xb) = 0, its covariance is s^2 (Z'X)^-1 Z'Z (X'Z)^-1, its predictions are X b; exact data give the coefficients back, with weights too. With weights the errors times the roots of the weights are orthogonal to Z.", "quantifier": "every data set, set of instruments with an invertible Z'X, and settings", "why_tests_cant": "Existence and uniqueness over all parameter values and all data.", "anchors": ["model/apop_ols.c: prep_z, apop_estimate_IV"], "deviations": "With weights the estimate is not the weighted one (the instruments are not weighted). Without instruments OLS is run, but then NULL is read."}
{"id": "C78", "title": "t tests", "statement": "Two samples of at least two numbers, not both constant: the difference of means, t = difference / sqrt(s1^2/(n1-1) + s2^2/(n2-1)) with sample variances s^2, df = n1+n2-2; p values 1-F(|t|) and 2(1-F(|t|)), the confidences their complements. Swapping negates difference and t and keeps the rest; x -> cx+s in both keeps all but the difference. Paired: the same with the differences, df n-1; samples of different length end the program.", "quantifier": "all pairs of samples of at least two numbers; any distribution function symmetric about zero", "why_tests_cant": "A relation between all fields of the output for every sample, and two equivariances.", "anchors": ["apop_tests.m4.c: apop_t_test, apop_paired_t_test, produce_t_test_output"], "deviations": "Sample variances are divided by n-1 rather than n, so t is always too near zero and the p value too large."}
{"id": "C79", "title": "Chi-squared test of a table", "statement": "A table of at least two rows and columns whose total is whole and whose margins are positive: Pearson's statistic, df (r-1)(c-1), upper tail. It is not negative, and zero exactly if each cell is row total times column total over total. The transpose gets the same report. One cell or no matrix: NULL.", "quantifier": "all tables of any size with non-empty rows and columns", "why_tests_cant": "For every table; an equivalence with independence.", "anchors": ["apop_tests.m4.c: apop_test_anova_independence, one_chi_sq"], "deviations": "The total is cut to an int: proportions give a wrong statistic or none. A single row or column always gets statistic zero, and a single column one degree of freedom too many."}
{"id": "C80", "title": "Analysis of variance", "statement": "The total row has the sum of squared deviations from the mean and the number of observations, the other rows' sums of squares and degrees of freedom add up to it (one and two ways), groups have their number less one; mean squares and F are the quotients, confidence is 1 - p.", "quantifier": "all data and groupings", "why_tests_cant": "Sums over any number of groups of any size.", "anchors": ["apop_tests.m4.c: apop_anova, apop_anova_one_way"], "deviations": "The sum of squares of a grouping uses only the first group's variance, so that it is zero if that group is constant however the groups differ; the total has N rather than N-1 degrees of freedom; the p value is the lower tail, so that p value and confidence are swapped."}
{"id": "C81", "title": "F test of a regression", "statement": "With the inverses computed: F = (N-q)/(q SSE) (Qb-c)' [Q (X'X)^-1 Q']^-1 (Qb-c), X with its columns but the first centered; df q and N-q; p the upper tail. F >= 0, and 0 exactly if Qb = c. Without contrasts and with a first column of ones F = (N-q)/q times the sum of squares of the fitted values about their mean over SSE. Wrong number of contrasts: error d; no inverse: error i. Contrasts with a vector can be used again with the same result.", "quantifier": "all data, contrasts and estimates; sequences of calls", "why_tests_cant": "Linear algebra of any size, and what a call leaves behind for the next.", "anchors": ["apop_tests.m4.c: apop_f_test"], "deviations": "N-q is used where the documentation has N-K, so F is too large. Contrasts of the wrong width read NULL instead of returning an error. Contrasts without a vector are left holding a freed one: a second test with them reads freed memory."}
{"id": "C82", "title": "Looking up a statistic", "statement": "For t, chi squared, F, lognormal and uniform the upper tail is the density above the statistic and the lower tail that below; in all families the two add up to one. Two tails for t and normal: twice the density beyond |statistic - center|. Defaults: standard normal, uniform to 1, upper tail for chi squared. Missing degrees of freedom: NaN. Names are compared without case.", "quantifier": "all statistics, names, parameters and tails", "why_tests_cant": "Every name, tail and parameter; relations between the tails.", "anchors": ["apop_tests.m4.c: apop_test"], "deviations": "No distribution (the documented default, normal) reads NULL. For the normal distribution upper and lower tail are exchanged. The lognormal's sigma defaults to 0, not 1. F and lognormal without a tail, and unknown names, return p = 0. The two-tailed uniform test can return 2."}
{"id": "C83", "title": "Linear constraints", "statement": "Constraints that hold with the margin to spare: unchanged, penalty zero, for any set and any history. One constraint: the nearest point, for margin zero or a normal of length one. Two constraints with normals of length one that are not parallel: the nearest point after any calls with the same two constraints, margin zero. The default, any dimension, after any calls with the default, margin zero: negative elements become zero, and that is the nearest point. The penalty is the distance moved.", "quantifier": "all points, all constraint sets, all histories of calls (the function keeps a scratch vector between calls)", "why_tests_cant": "A statement over all points of the feasible set, all dimensions and all previous calls in the thread.", "anchors": ["apop_linear_constraint.m4.c: apop_linear_constraint, get_candiate, find_nearest_point"], "deviations": "The code breaks the general claim: the closest point found is kept between calls, so that a call with other constraints can return the old point, which does not meet them, with penalty zero (refuted); normals of another length give points that do not meet the constraints, because squared lengths are used as lengths (refuted), and the margin is scaled by the length's cube (refuted); with a margin and several constraints the result need not be nearest (refuted)."}
{"id": "C84", "title": "Distribution functions by simulation", "statement": "As above, with any generator: the number of draws is the settings' (10000 if none), they come from the parameters the model has at the first call, the value is between 0 and 1, monotone in the point, and 1 just if all draws are below it; later calls read the same draws and leave the generator alone.", "quantifier": "all histories of new models, copies, frees, changed parameters and settings, and calls of apop_cdf", "why_tests_cant": "Reference counts over every interleaving of copies, frees and first calls.", "anchors": ["apop_model.m4.c: apop_cdf, lte, apop_cdf_settings_init, apop_cdf_settings_copy, apop_cdf_settings_free, apop_model_copy, apop_model_free"], "deviations": "Draws made before the parameters change are used after it too (refuted). The counter counts groups, not users of a matrix, so draws made after the model was copied are never freed (refuted)."}
{"id": "C85", "title": "Logit likelihood and prediction", "statement": "The log likelihood of apop_logit is the sum over observations of the logarithm of the probability of the option taken, exp(x.b_j) over the sum for all options, the numeraire's coefficients being zero, if every outcome is in the list of options; it is concave in the coefficients. apop_predict gives for each observation those probabilities, which are positive and sum to one, and the number of the most probable option (the first of several).", "quantifier": "all data sets, option counts and coefficients", "why_tests_cant": "Real-valued for every data set and coefficient matrix; concavity is a statement about all pairs of parameters.", "anchors": ["model/apop_probit.c: one_logit_row, find_index, multilogit_log_likelihood, multilogit_expected, logit_rng"], "deviations": "An outcome not in the list counts as the last option (refuted). A draw writes nothing into the caller's array, whatever the inputs: the PMF drawn from has no data and is not asked for row numbers (refuted)."}
{"id": "C86", "title": "Probit likelihood and score", "statement": "With two options, the log likelihood of apop_probit is the sum of the logarithms of the probabilities of the options taken and the score is its gradient, for every differentiable distribution function strictly between 0 and 1.", "quantifier": "all data sets and coefficients, every smooth distribution function strictly between 0 and 1", "why_tests_cant": "A derivative for all data sets and parameters.", "anchors": ["model/apop_probit.c: biprobit_log_likelihood, multiprobit_log_likelihood, probit_dlog_likelihood"], "deviations": "With three options or more the likelihood uses the coefficients in column 1 for every option, so that all others have no effect (refuted), and sets each option but the last against the rest."}
{"id": "C87", "title": "Special cases belong to their models", "statement": "Whatever has been registered, the score used for a model is the first registered for a model with the same likelihood; its prediction and parameter model, if it has an estimation method, the first registered for one with the same estimation method; its printing the first registered for one with the same first method (of log likelihood, likelihood, estimate, draw, cdf), if all functions are at addresses within a tenth of each other.", "quantifier": "all histories of registrations, all models and addresses of their methods", "why_tests_cant": "All histories of registration and all layouts of the code in memory.", "anchors": ["apop.m4.h: apop_score_hash, apop_predict_hash, apop_parameter_model_hash, apop_model_print_hash, apop_update_hash", "apop_vtables.c: apop_vtable_add, apop_vtable_get"], "deviations": "Models without an estimation method share one entry for predictions and parameter models, because the ?: of the hash takes the whole sum as condition: after a logit was prepared, a probit is predicted by it (refuted). The hash for updating can be the same for two pairs of models with four different likelihoods (refuted)."}
{"id": "C88", "title": "A likelihood search ends, and its status", "statement": "A maximum likelihood search by simplex, conjugate gradients or root finding makes at most max_iterations iterations (at least one), whatever the minimiser does. The status reported by conjugate gradients is 0 exactly if the last iteration was not number max_iterations and had no bad evaluation; by the simplex, 0 unless there was a bad evaluation in an iteration after the first; by root finding, always -1. A bad evaluation while the minimiser is set up leaves no status.", "quantifier": "every model, data set, starting point, settings, and every behaviour of the minimiser (points asked for, statuses returned, interruptions, bad evaluations)", "why_tests_cant": "the endings depend on the run of the minimiser; a test sees the runs of a few models that converge", "anchors": ["apop_mle.m4.c:apop_maximum_likelihood_w_d", "apop_mle.m4.c:apop_maximum_likelihood_no_d", "apop_mle.m4.c:find_roots", "apop_mle.m4.c:apop_maximum_likelihood"], "deviations": "The documented meaning of the status is refuted: a simplex search that used up its iterations without converging reports 0, so does one whose first iteration meets a NaN, and a conjugate gradient search stuck in its first iteration; a root that was found is reported as -1, and so is convergence in the last iteration allowed. Two of the three methods free the vector of parameters before its size is read for the info criteria, which are wanted by default: undefined behaviour (C88_refuted_freed)."}
{"id": "C89", "title": "The log likelihood, criteria and path reported by a search", "statement": "The log likelihood reported by a simplex search is the greatest log likelihood less penalty over all points evaluated, if that is positive, otherwise the log likelihood at the parameters returned; AIC = 2k - 2L, AIC_c adds 2k(k+1)/(n-k-1), BIC = k ln n - 2L. The path has a row for every evaluation, in order: the vector of the parameters after the constraint, and the objective less the penalty. A model with a probability only that met a penalty greater than it reports none of these.", "quantifier": "every model with or without constraint, every sequence of evaluations a minimiser may make", "why_tests_cant": "which points are evaluated depends on the minimiser; a maximum over a history is not seen at its end", "anchors": ["apop_mle.m4.c:negshell", "apop_mle.m4.c:dnegshell", "apop_mle.m4.c:add_info_criteria", "apop_mle.m4.c:auxinfo", "apop_mle.m4.c:tracepath"], "deviations": "The log likelihood reported need not be that of the parameters reported (refuted, by a model with positive log likelihoods). For conjugate gradients and root finding see C88: with the info wanted they read freed memory. A point asked for together with its gradient is in the path twice; a path for parameters without a vector is undefined behaviour (refuted)."}
{"id": "C90", "title": "Restarting an estimation never loses ground", "statement": "A restart returns the new estimate exactly if the starting point and the new parameter vector are within the boundary and the log likelihood recorded with the new estimate is greater than that recorded with the old; otherwise the old one; the copy and the loser are freed; over any sequence of restarts the log likelihood on record never goes down.", "quantifier": "every model, every estimation method, every sequence of restarts with any copies, kinds of starting point and boundaries", "why_tests_cant": "a property of histories of restarts", "anchors": ["apop_mle.m4.c:apop_estimate_restart", "apop_mle.m4.c:get_ll", "apop_model.m4.c:apop_estimate", "apop_model.m4.c:apop_model_clear"], "deviations": "The plain use, without a copy, is refuted: the new estimate starts with a copy of the old one's info page, its own rows come later, and looking up the log likelihood finds the first; so the old estimate is always returned, whatever the new search finds (C90_refuted_default, _loop), and a model estimated twice shows the status and likelihood of the first time (C90_refuted_again). With a copy without info the comparison is as documented (C90_fresh_copy). The starting points es and ns are not as documented (C90_refuted_start). Only the vector of the new parameters is checked against the boundary. Passing the same model as original and copy is not modelled."}
{"id": "C91", "title": "Numerical gradients", "statement": "apop_numerical_gradient returns for each parameter a number that tends to the derivative of the log likelihood as all steps tend to zero, whichever steps GSL settles on, and equals the derivative where the log likelihood is a polynomial of degree four or less in that parameter.", "quantifier": "every model, data set, parameter vector and step, and every choice of steps by the GSL routine", "why_tests_cant": "a limit over all functions and steps; a test compares a few derivatives to some digits", "anchors": ["apop_mle.m4.c:apop_numerical_gradient", "apop_mle.m4.c:apop_internal_numerical_gradient", "apop_mle.m4.c:one_d"], "deviations": "It does change the model: the last parameter is left greater by half a step, and further at each call (C91_refuted_moved, _drift). Where a constraint binds, the penalty is added to the likelihood, although the searches subtract it (C91_refuted_penalty). GSL's choice between two steps, from its error estimates, is arbitrary in the model."}
{"id": "C92", "title": "Numerical Hessians and covariances", "statement": "The Hessian is symmetric for every model. For a log likelihood quadratic in the parameters it is exactly the matrix of second derivatives, and the covariance the inverse of its negation, added to the parameters as the page <Covariance> unless they have one.", "quantifier": "every model (for the exact value: every quadratic log likelihood), every parameter vector and steps", "why_tests_cant": "the entries depend on a whole sequence of evaluations that share the model's parameters", "anchors": ["apop_mle.m4.c:apop_model_hessian", "apop_mle.m4.c:apop_fn_for_infomatrix", "apop_mle.m4.c:apop_model_numerical_covariance"], "deviations": "The estimate is not left alone: the last parameter is strictly greater afterwards (C92_refuted_estimate), and the rows of the Hessian after the first are those at the moved place (C92_refuted_place). Inverting is a parameter, assumed to invert the matrix at hand; a singular Hessian is outside the theorem. No constraint in the exact results."}
{"id": "C93", "title": "The step size of simulated annealing", "statement": "The distance of one step of the annealing search, before the constraint is applied, is step_size times the sum of the distances between neighbouring cut points, in the order drawn; it is step_size with one or two parameters, and at most step_size times the number of parameters.", "quantifier": "every parameter vector, starting point, step size, and all draws", "why_tests_cant": "a bound over all random draws", "anchors": ["apop_mle.m4.c:annealing_step", "apop_mle.m4.c:annealing_distance", "apop_mle.m4.c:set_start"], "deviations": "The documented bound is refuted for three parameters: the cut points are not sorted (C93_refuted)."}
{"id": "C94", "title": "A search by simulated annealing returns the best point it has tried", "statement": "A search by annealing ends if mu_t > 1 and t_min > 0. If it is neither interrupted nor meets a NaN, the parameters returned are one of the points tried at which the likelihood is nowhere greater, the path shows every point tried, all of them meet the constraint (if the constraint moves parameters to where it is met), and the log likelihood reported is that of the parameters returned. With a NaN it ends at that point with status -1.", "quantifier": "every model, constraint, starting point, cooling schedule, and every sequence of random draws", "why_tests_cant": "an invariant over all histories of random moves", "anchors": ["apop_mle.m4.c:apop_annealing", "apop_mle.m4.c:annealing_energy", "apop_mle.m4.c:annealing_memcpy", "apop_mle.m4.c:annealing_check_constraint"], "deviations": "Interrupted by SIGINT it returns the starting point, not where the search was (C94_refuted_signal); after a NaN the estimate is the point without likelihood, the best point is lost (C94_refuted_nan). gsl_siman_solve is modelled from GSL's source as known (not in /repo); its acceptance rule is an arbitrary function. SIGINT comes between moves only. The statements on the estimate are for no covariance wanted, which would move it (C92)."}
{"id": "C95", "title": "Searching one dimension at a time", "statement": "With a dim_cycle_tolerance, maximum likelihood estimation searches over each parameter once per cycle, in order, each search starting at the parameter's current value with the others as they are by then. If no search over one dimension comes out worse than it starts and the log likelihood is bounded, the cycles end, after two or more; the log likelihood has not gone down, and the last cycle has gained at most the tolerance.", "quantifier": "every log likelihood, every one-dimensional search method, starting point, number of parameters and tolerance", "why_tests_cant": "termination and monotonicity over all likelihoods and sub-searches", "anchors": ["apop_mle.m4.c:dim_cycle", "apop_mle.m4.c:get_ll"], "deviations": "A model that has a log likelihood on record gets two cycles whatever is gained (C95_refuted_recorded); max_iterations does not bound the cycles, with an unbounded likelihood they never end (C95_refuted_unbounded). After the search the settings' starting point is a dangling pointer and not modelled."}
{"id": "C96", "title": "The starting point of a model with fixed parameters", "statement": "If the base model of apop_model_fix_params has a starting point and one parameter is free, the search over it starts at the value it gives for that parameter. With more free parameters only the first does.", "quantifier": "every starting point, every set of free parameters", "why_tests_cant": "holds or not by the number of free parameters", "anchors": ["transform/apop_fix_params.c:set_starting_point", "transform/apop_fix_params.c:addin"], "deviations": "True for one free parameter only (C96_one). With more, the second starts at its own row number, the third at -1, the fourth at 0, whatever the starting point (C96_refuted): a strided view is copied as if it were contiguous. Modelled for a parameter vector of one page."}
{"id": "C97", "title": "The parameters of a mixture", "statement": "A mixture's parameters are one weight per component, then each component's parameters in turn. If every component has a parameter, then whatever the parameters of the mixture are set to, each component gets its part before any evaluation, and the weights theirs if they are searched for and a likelihood has been computed.", "quantifier": "every list of components, all parameter values", "why_tests_cant": "holds for all combinations of components with and without parameters, and all histories of copies", "anchors": ["transform/apop_mixture.c:mixture_prep", "transform/apop_mixture.c:unpack", "transform/apop_mixture.c:apop_model_mixture_base"], "deviations": "The documentation gives n-1 weights; there are n (C97_prep). If a component has no parameters, none of the components after it gets its own (C97_refuted_empty). The components are shared between copies, so estimating a copy changes the original (C97_refuted_shared), and freeing a mixture and a copy frees the same memory twice (C97_refuted_free)."}
{"id": "C98", "title": "The likelihood of a mixture and its next weights", "statement": "The log likelihood of a mixture is, summed over the observations, the greatest of the components' log likelihoods each plus its weight. With equal weights this is the documented value (each likelihood times its weight) plus a constant. Computing it leaves for the next step each component's average share of the observations: positive numbers that sum to one, with equal weights the documented shares.", "quantifier": "every list of components, weights and data set", "why_tests_cant": "an identity and inequalities over all likelihoods and data sets", "anchors": ["transform/apop_mixture.c:mixture_log_likelihood", "transform/apop_mixture.c:sum_exp_vector", "transform/apop_mixture.c:get_lls"], "deviations": "With unequal weights it is not the documented value: the weight is added to the log likelihood where its logarithm should be. A mixture of one model has that model's log likelihood plus the number of observations (C98_refuted_one); a component of weight zero can decide the value (C98_refuted_zero) and its next weight is positive. Log likelihoods are finite reals."}
{"id": "C99", "title": "The constraint of a mixture", "statement": "If every component's parameters meet that component's constraint: with the weights searched for and a likelihood computed, the weights are set to the next weights at a penalty of their distance; else to the nearest nonnegative ones at a penalty of that distance. The other parameters stay as they are.", "quantifier": "every list of components, weights and parameters", "why_tests_cant": "all parameter values, and the state between calls", "anchors": ["transform/apop_mixture.c:mixture_constraint"], "deviations": "Parameters that do not meet a component's constraint are not moved to where they do: the component's new parameters are written over the weights, from the start of the vector (C99_refuted). A component without a constraint function leads to a call of a null pointer (C99_refuted_missing)."}
{"id": "C100", "title": "Distribution function and draws of a mixture", "statement": "The distribution function of a mixture is the weighted mean of the components': between zero and one and rising where they are, with nonnegative weights. The first draw is from each component with the probability its weight gives it, and never from one of weight zero.", "quantifier": "every list of components, weights, observation and uniform draw, every history of draws", "why_tests_cant": "all weights and draws, and the state kept between draws", "anchors": ["transform/apop_mixture.c:mixture_cdf", "transform/apop_mixture.c:mixture_draw"], "deviations": "Later draws follow the weights as they were at the first draw, whatever has become of them (C100_refuted_stale, C100_refuted_moved)."}
{"id": "C101", "title": "Kullback-Leibler divergence is the sum it is documented to be", "statement": "apop_kl_divergence from a PMF is the sum over its rows of p ln(p/q), with p the row's share of the weight (1/n without weights) and q its probability under the other model; rows with no weight add nothing. It is not negative if the q sum to at most one, and zero only if every q is its p; so a PMF without repeated rows does not diverge from itself. From another model it is the mean of ln(p/q) over the draws, plus infinity if a draw has q = 0.", "quantifier": "every list of rows and every weights not all zero; every other model's probabilities", "why_tests_cant": "rows, weights and probabilities are unbounded and the sign claim is an inequality over all of them", "anchors": ["apop_stats.m4.c:apop_kl_divergence", "model/apop_pmf.c:pmf_p", "apop.m4.h:Apop_stopif"], "deviations": "Deviations proved: if a row with weight has q = 0 the result is NaN, not the documented minus infinity (the break only leaves the macro it is in, and plus infinity is then added to minus infinity). A PMF with repeated rows diverges by a negative number from the same distribution written with weights."}
{"id": "C102", "title": "The density of a kernel density estimate", "statement": "The log likelihood of data under a kernel density estimate is the sum over the observations of ln of the weighted mean, over the points of the base data, of the kernel's density when set at the point; minus infinity if that mean is zero for one of them. The computation by way of the greatest term changes nothing.", "quantifier": "every number of points and observations, every weights not all zero, every kernel and set function whose last setting wins", "why_tests_cant": "sizes, weights and kernels are unbounded, with -inf terms in any places", "anchors": ["model/apop_kerneld.c:kernel_ll", "model/apop_kerneld.c:apop_set_first_param"], "deviations": ""}
{"id": "C103", "title": "A kernel density estimate is a distribution", "statement": "The CDF of a kernel density estimate is the weighted mean of the kernels' CDFs; it is between zero and one and rises where theirs do. The density has total mass one, summed or integrated, if the kernels' densities have.", "quantifier": "every base data, weights and kernel; every pair of arguments; every interval", "why_tests_cant": "an identity and inequalities over unbounded data, and an integral", "anchors": ["model/apop_kerneld.c:kernel_cdf", "model/apop_kerneld.c:kernel_ll"]}
{"id": "C104", "title": "Estimates that share a kernel do not disturb each other", "statement": "Any number of kernel density estimates can share one kernel model: of log likelihoods, CDFs and draws made one after another, in any order, each gives what it would alone. Log likelihoods and CDFs evaluated by several threads do so under every schedule.", "quantifier": "every sequence of uses; every interleaving of the threads' steps", "why_tests_cant": "the sequences and schedules are unbounded", "anchors": ["model/apop_kerneld.c:kernel_ll", "model/apop_kerneld.c:kernel_cdf", "model/apop_kerneld.c:kernel_draw", "apop_asst.m4.c:apop_model_draws"], "deviations": "Deviations proved: draws by several threads (apop_model_draws) set the kernel and draw from it in two unprotected steps, so both of two draws can be from the second thread's point; the user's kernel is left set at the last point of the data."}
{"id": "C105", "title": "Draws from a kernel density estimate", "statement": "A draw from an estimate with weights is from the kernel set at a point of the base data that is picked with the probability its share of the weight gives, never at one of weight zero.", "quantifier": "every weights, uniform draw and kernel", "why_tests_cant": "it ranges over all weights and uniform draws", "anchors": ["model/apop_kerneld.c:kernel_draw", "model/apop_pmf.c:draw"], "deviations": "Deviation proved: without weights the last point's kernel is never drawn from."}
{"id": "C106", "title": "Who frees the parts of a kernel density estimate", "statement": "The PMF and the kernel that the settings group has made are freed once, with the original, and those the user gave are not freed, in whatever order the original and its copies are freed.", "quantifier": "every number of copies and every order of freeing; each of PMF and kernel given or not", "why_tests_cant": "unboundedly many copies and orders", "anchors": ["model/apop_kerneld.c:Apop_settings_init(apop_kernel_density)", "model/apop_kerneld.c:Apop_settings_copy(apop_kernel_density)", "model/apop_kerneld.c:Apop_settings_free(apop_kernel_density)", "model/apop_kerneld.c:apop_kernel_estimate"], "deviations": "Deviations proved: a copy made of an estimate that owns its PMF or kernel points to freed memory once the original is freed. Estimating an estimate again with new data keeps the old data."}
{"id": "C107", "title": "The likelihood of a multinomial", "statement": "The log likelihood of a matrix of counts under a multinomial is the sum over the rows of ln of the multinomial's probability of the row, with bin zero taking what probability the parameters leave; minus infinity if a row has none. The parameters are as they were.", "quantifier": "every number of bins and rows, every counts, every parameters that leave no bin a negative probability", "why_tests_cant": "an identity over unbounded tables with impossible rows in any places, and a parameter vector overwritten and restored meanwhile", "anchors": ["model/apop_multinomial.c:multinomial_log_likelihood", "model/apop_multinomial.c:binomial_ll", "model/apop_multinomial.c:multinomial_ll"], "deviations": "Deviation proved: the test for two bins looks at n instead: with n of two and more than two bins only column one is used, and the probabilities so given to all the ways of tossing two balls sum to more than one."}
{"id": "C108", "title": "Estimating a multinomial", "statement": "The estimate's probabilities are the bins' shares of all the counts, n the whole part of the rows' mean sum; no other probabilities make the rows more likely. The covariance page is symmetric, its rows sum to zero and no combination of the bins has a negative variance; making it leaves the parameters.", "quantifier": "every table of counts not all zero, every rival vector of probabilities, every combination of the bins", "why_tests_cant": "an optimum over all probability vectors, and a quadratic form's sign over all vectors", "anchors": ["model/apop_multinomial.c:multinomial_estimate", "model/apop_multinomial.c:make_covar"], "deviations": "Deviation proved: the estimate's draw size is n, not the number of bins."}
{"id": "C109", "title": "Drawing from a multinomial", "statement": "A draw of counts comes up with just the multinomial's probability of n tosses, never with another sum than n, and leaves the parameters. Draws made in a block are each in its row. Draws one after another, by whatever threads, are all made with the same n and probabilities.", "quantifier": "every n, number of bins and probabilities (zeros among them), every vector of counts, every number of draws", "why_tests_cant": "an identity of distributions proved by induction on the bins, and interleavings of draws", "anchors": ["model/apop_multinomial.c:multinomial_rng", "apop_asst.m4.c:apop_model_draws"], "deviations": "Deviations proved: an n that is not whole is cut down by a draw. A binomial draw writes two numbers where the draw size is one, as does an estimated multinomial with fewer tosses than bins: outside the data set. The binomial's first number counts failures. Two threads that draw from one model can leave it with n of zero."}
{"id": "C110", "title": "Text files arrive in the table as they are", "statement": "Reading a text file into a table that does not exist makes a table with the file's column names, after a column for row names if there are row names, and a row for each line: a blank field or the missing-value string is NULL, a number arrives as that number, other text unchanged, whatever characters are in it; a line too short is filled up with NULL. If the table exists, the rows are added, replace the old ones, or nothing is done, as asked.", "quantifier": "every names, lines and fields (quotes, commas, points, infinities in any places), every width, every state of the table before", "why_tests_cant": "fields are arbitrary strings spliced into SQL text in one of the two ways the rows are written", "anchors": ["apop_conversions.m4.c:apop_text_to_db", "apop_conversions.m4.c:line_to_insert", "apop_conversions.m4.c:prep_string_for_sqlite", "apop_conversions.m4.c:tab_create_sqlite", "apop_conversions.m4.c:get_field_names"], "deviations": "Deviations proved: fields beyond the first line's number are dropped. A file with row names but no column names cannot be read (the table is made, no row inserted). A NaN written otherwise than as nan_string arrives as the text 0.0/0.0. A column name with an apostrophe makes the table's creation fail. Beyond 999 columns rows are inserted by SQL text: short lines are lost, and a field with quotes of both kinds can end the statement, so that what follows in the file is executed."}
{"id": "C111", "title": "Whether a table exists, and removing it", "statement": "apop_table_exists answers whether the database has a table or view of the name; asked only, it changes nothing; told to remove it, just that table or view is gone afterwards and everything else is still there; nothing is removed if the answer is no.", "quantifier": "every database contents and name", "why_tests_cant": "ranges over all contents of a database", "anchors": ["apop_db.m4.c:apop_table_exists", "apop_db.m4.c:tab_exists_callback"], "deviations": "Deviation proved: a table whose name differs in case, or a temporary one, is not seen, though SQLite takes it for the same."}
{"id": "C112", "title": "What is printed can be read back", "statement": "A data set with a matrix, a vector or both (and weights, if its columns have no names), printed with apop_data_print to a file with a delimiter that apop_text_to_data knows -- a blank one such as the default tab if there are both a vector and a matrix -- and read back with apop_text_to_data, is a matrix with the set's columns, vector first, in the same order, with the same names of columns and rows; whole numbers are the same, others are within half of a millionth.", "quantifier": "every size, entries in the range of int, names without special characters, delimiters, delimiter", "why_tests_cant": "ranges over all sets, names and delimiters", "anchors": ["apop_output.m4.c:apop_data_print_core", "apop_output.m4.c:p_fn", "apop_conversions.m4.c:apop_text_to_data"], "deviations": "Deviations proved: with a visible delimiter (comma) a vector beside a matrix makes rows of one field too many; weights with named columns make the reader run past the names; a title is read as the names; elements of a vector past the matrix's rows are not printed; apop_opts.db_name_column=NULL is dereferenced, and if set is never printed; converting a number beyond the range of int is undefined; numbers under half a millionth are printed as zero."}
{"id": "C113", "title": "Where output goes, and its pages", "statement": "apop_data_print sends all pages of a set, in order, to the pipe given or else to the screen, after what was there, and leaves it open; given a file name, a set of one page is the file's content, or comes after it when appending, and nothing else changes, however the C library buffers; appending several pages loses none of their bytes nor of the file's; a table gets the set, in place of or after what it held.", "quantifier": "every settings of output, sets, number of pages, buffering, and former contents of files and tables", "why_tests_cant": "ranges over all pages, states of the file system and times at which buffers are written out", "anchors": ["apop_output.m4.c:apop_data_print", "apop_output.m4.c:apop_prep_output"], "deviations": "Deviations proved: of several pages sent to a file by name, the first is written over the others (or the order is reversed, when appending) as long as they fit in the buffer; the documented default of appending is not so; a file that cannot be opened is written to all the same; with a name and type 'p' the user's pipe is closed; further pages do not get into a table."}
{"id": "C114", "title": "Filling in missing data", "statement": "apop_ml_impute fills in exactly the NaNs of a data set, in place: whatever the search tries and finds, no other number, shape, name, text or weight changes, the i-th NaN (page by page, the vector first, then the matrix by rows) becomes the i-th number found, and the model given keeps its parameters; every value the search gets is the model's own log likelihood, at its own parameters, of the data filled in with the point tried (less the constraint's penalty). Without a model and without a complete row the result is NULL and the data stay. apop_predict returns data with no NaN as they are, and NULL data become one row, all of it predicted.", "quantifier": "every data set, model, constraint, and sequence of points a search may try", "why_tests_cant": "ranges over all searches and data sets", "anchors": ["apop_missing_data.m4.c:apop_ml_impute", "apop_model.m4.c:apop_predict", "transform/apop_fix_params.c:unpack", "apop_mle.m4.c:negshell"], "deviations": "With a constraint, the NaNs are taken to be on the first page. Deviations proved: with NaNs on a later page, a penalty moves the point tried (its later elements are read from the first page); apop_predict looks for NaNs on the first page only, so that NaNs on later pages alone are left; given complete data apop_ml_impute estimates the model again on no data."}
{"id": "C115", "title": "The envelope of adaptive rejection sampling stays above the log density", "statement": "apop_arms's envelope: with at least three starting points in increasing order and within the bounds, room for them and a convexity adjustment that is not negative (anything else is refused), and a log density that is concave between the bounds or Metropolis switched on, setting up succeeds with every starting point in the envelope; after any history of draws the envelope's points run in order from bound to bound, those marked as on the log density are, there are never more than npoint of them, no test reports a violation, and a concave log density is at no point above the envelope. Without Metropolis a log density whose slopes increase between starting points is refused.", "quantifier": "every concave log density (or any, with Metropolis), setting, uniform numbers and number of draws", "why_tests_cant": "ranges over all densities and histories of draws", "anchors": ["apop_arms.c:initial", "apop_arms.c:meet", "apop_arms.c:update", "apop_arms.c:cumulate", "apop_arms.c:test"], "deviations": "Real arithmetic; the count of evaluations is left out."}
{"id": "C116", "title": "Draws by adaptive rejection Metropolis sampling follow the density", "statement": "apop_arms_draw: while no point of the envelope is 100 or more below the highest, a draw never fails; each round proposes the x that has the fraction u1 of the envelope's mass to its left (exactly; in a nearly flat piece to within 1/4000 of the piece's mass), with the proposal's density at or above a concave density; x is accepted if u2 times the proposal's density is below the density; with Metropolis the chain then moves with the probability of ARMS, always if the log density is concave, and else its old state is returned. Every draw returns 0 and what it writes is within the bounds. A log density with Lipschitz constant k and k (xr - xl) (1 + convex) at most 19 never has points 100 below the highest.", "quantifier": "every log density, setting, sequence of uniform numbers, state of envelope and chain that can be reached, and number of draws", "why_tests_cant": "ranges over all densities, random numbers and histories", "anchors": ["apop_arms.c:apop_arms_draw", "apop_arms.c:invert", "apop_arms.c:test", "apop_arms.c:area", "apop_arms.c:logshift"], "deviations": "Real arithmetic. Proved for a previous chain state within the bounds, as it is from the second draw on (outside the right bound the C code dereferences NULL). Deviation proved: after 1,000 rejections the draw returns 0, success, with nothing written. Each round takes three random numbers (C takes the third only for the Metropolis step)."}
{"id": "C117", "title": "The Zipf model's likelihood and draws agree", "statement": "With parameter a of one or more, apop_log_likelihood of the Zipf model is the sum of its cells' log likelihoods, the mass of n is proportional to n^-a and the masses of 1, 2, 3, ... add to one; a parameter below one gives NaN and an error. With a above one, each turn of apop_draw's loop gives n with a chance that is the same multiple of the likelihood's mass of n for every n below 2^31, the turns' intervals share out the first uniform, and the value handed back is a whole number of at least one, that of the first turn not rejected, for first uniforms above 2^(-31(a-1)).", "quantifier": "every data set, every parameter, every number n, every pair of uniforms and every tape of them", "why_tests_cant": "The distribution of a rejection sampler is a statement about all pairs of uniforms and all n at once; samples cannot tell a slightly wrong acceptance region from chance.", "anchors": ["model/apop_zipf.c: zipf_log_likelihood, zipf_rng"], "deviations": ["a first uniform of at most 2^(-31(a-1)), zero among them, makes an int of a number over the int range (undefined behaviour); with a = 1.1 that is one first uniform in nine", "the parameter one, which the check lets pass, does so for every first uniform"]}
{"id": "C118", "title": "The Yule model's draws follow its likelihood", "statement": "With parameter b above one, apop_draw of the Yule model gives a whole number of at least one as long as the first exponential is below 2^31 times -ln(1-exp(-s/(b-1))), s being the second. Given s > 0 it exceeds k when the first exponential is at least -k ln(1-exp(-s/(b-1))), that is with the chance (1-exp(-s/(b-1)))^k, and over s the chance to exceed k is one minus the sum of the likelihood's masses of 1..k, for every k (given the log gamma function's recurrence). The masses add to one.", "quantifier": "every parameter above one, every pair of exponential draws, every k", "why_tests_cant": "It is a statement about an integral over the second exponential for each of infinitely many k.", "anchors": ["model/apop_yule.c: yule_rng, yule_log_likelihood, apply_me"], "deviations": ["a larger first exponential makes an int of a number over the int range (undefined behaviour), frequent for b near one", "a parameter of one or less is not checked: a NaN or an infinity is converted to an int"]}
{"id": "C119", "title": "The likelihood of a transformed model is the base model's with the Jacobian", "statement": "apop_p of a model that has only one of the two methods is the exponential of its apop_log_likelihood. The log likelihood of a coordinate-transformed model is the base model's at the transformed data plus the log of the Jacobian, so that over every interval on which the transformation rises, or falls, with derivative of absolute value the Jacobian, the transformed model's density integrates to the base model's over the interval's image; the Normal model on log x with the product of 1/x as its Jacobian is the Lognormal model. A settings group that lacks a piece, or none, gives NaN.", "quantifier": "every base model, every transformation and Jacobian, every data set, every parameter list, every interval", "why_tests_cant": "That a density integrates rightly over every interval for every base model and transformation is a statement about all of them.", "anchors": ["apop_model.m4.c: apop_p, apop_log_likelihood", "transform/apop_coordinate_transform.c: ct_ll", "eg/jacobian.c: rev, rev_j"], "deviations": ["the example that documents the transformation (eg/jacobian.c) takes the sum of 1/x where the product is needed: with more than one observation its log likelihood is off the Lognormal model's by a constant (it does not depend on the parameters, so that the search is not misled)"]}
{"id": "C120", "title": "A transformed model's parameters are its own", "statement": "After any history of estimations of coordinate-transformed models an estimate can be made of any base model, it has the parameters its search found, and its likelihood is that of those parameters. Every estimate's parameters are those of the last estimation with the same base model, and so still its own as long as none has followed.", "quantifier": "every history of estimations over every set of base models, every later copy and free", "why_tests_cant": "Whether two models share memory depends on the history of calls; tests see one history.", "anchors": ["transform/apop_coordinate_transform.c: jacobian_prep, ct_ll", "apop_model.m4.c: apop_model_copy, apop_estimate, apop_model_free"], "deviations": ["a second estimation with the same base model replaces the first estimate's parameters; freeing one of the two leaves the other with freed memory, as it does the base model", "the likelihood of a copy ignores the copy's parameters: a search that starts from a copy (apop_estimate_restart) sees a constant", "estimating a transformed model without a settings group reads a NULL pointer"]}
{"id": "C121", "title": "The Dirichlet model's likelihood, score and relation to the Beta", "statement": "With parameters that sum to 1e-5 or more in absolute value, apop_log_likelihood of the Dirichlet model is the sum over the rows of the log of the Dirichlet density, in two dimensions the Beta model's log likelihood of the first column; with positive parameters the score is the gradient of the log likelihood. Below that sum the log likelihood is NaN.", "quantifier": "every data set, every parameter list of the right length", "why_tests_cant": "The score is a derivative at every point; tests compare it with differences at a few.", "anchors": ["model/apop_dirichlet.c: dirichlet_log_likelihood, dirichlet_dlog_likelihood, dirichletlnmap"], "deviations": ["positive parameters that sum to less than 1e-5 give NaN, although the density is defined for all positive parameters"]}
{"id": "C122", "title": "The multivariate Normal's draws follow its likelihood", "statement": "With a positive definite covariance matrix, apop_draw of the multivariate Normal gives, as its standard normal numbers run over all lists, every point exactly once, and the log likelihood of a draw is the sum of those of the numbers less the log of the square root of the covariance matrix's determinant, which is the factor by which the map changes volumes. The log likelihood of a data set is the sum of its rows', a diagonal covariance matrix gives the sum of Normal log likelihoods, a determinant that is zero or NaN gives -infinity and a negative one NaN.", "quantifier": "every dimension, mean, covariance matrix, data set and list of standard normal numbers", "why_tests_cant": "It is an identity between the density and the draws at every point in every dimension.", "anchors": ["model/apop_multivariate_normal.c: apop_multinormal_ll, x_prime_sigma_x, mvnrng"], "deviations": ["only the upper triangle of the inverse is read, so that a matrix that is not symmetric gets another quadratic form than its own"]}
{"id": "C123", "title": "The t distribution model's estimate, likelihood, cdf and draws belong together", "statement": "apop_estimate of apop_t_distribution, for a model not estimated before, gives parameters named \u03bc, \u03c3 and df: the mean of all the numbers, in vector, matrix or both, one less than their count as df, and, with more than three numbers, the \u03c3 with which the distribution's variance is the sample variance for numbers in the vector and the population variance for numbers in the matrix. With three numbers \u03c3 is zero, with two different ones NaN. The log likelihood is the sum of its cells', the density of one number is the derivative of apop_cdf, and a draw is at most x exactly when the standard t draw is at most (x-\u03bc)/\u03c3.", "quantifier": "every data set of more than three numbers, in vector, matrix or both, every earlier estimate, every parameter triple with \u03c3 > 0", "why_tests_cant": "The agreement of density, cdf and draws is at every point; whether an estimate depends on an earlier one is a matter of history.", "anchors": ["model/apop_t.c: apop_t_estimate, apop_tdist_llike, apop_t_dist_draw, apop_t_dist_cdf", "apop_data.m4.c: apop_data_add_named_elmt"], "deviations": ["the same numbers give one \u03c3 in the vector and another in the matrix", "with numbers in both parts the difference between the parts' means is left out: \u03c3 may be zero for numbers that differ", "estimating a t model that has been estimated before leaves the three parameters of the first estimate and adds three more behind them, which nothing reads"]}
{"id": "C124", "title": "Principal components are the directions of greatest variation", "statement": "apop_matrix_pca, asked for at most as many dimensions as there are columns, leaves the matrix handed in with each column's mean taken off and returns components that are orthogonal, of length one and eigenvectors of the columns' sums of products, whatever singular value decomposition GSL gives. If the columns vary each weight is the component's share of the total variation, and the weights are not negative and add to one with all the dimensions and to at most one with fewer. No direction orthogonal to the earlier components has more variation than a component.", "quantifier": "every matrix, every number of dimensions asked for, every direction, every singular value decomposition", "why_tests_cant": "Optimality is over all directions, and the decomposition is not unique: tests see one.", "anchors": ["apop_linear_algebra.m4.c: apop_matrix_pca", "apop_stats.m4.c: apop_vector_normalize"], "deviations": ["columns that do not vary give weights of zero over zero", "more dimensions than columns are not refused: a NULL column is read"]}
{"id": "C125", "title": "The distribution of parameter estimates", "statement": "apop_parameter_model gives, for a model estimated from data, a multivariate Normal around all the parameters with the bootstrap's covariances, or for one parameter a Normal around it; for a stochastic model whose parameters are a vector the PMF over the estimates made, or over one parameter of each. A draw has as many numbers as there are parameters, and for parameters that are a vector as many as the model's dsize says.", "quantifier": "every parameter set (any parts, any pages), every covariance matrix, every list of estimates, every parameter asked for", "why_tests_cant": "The shapes of parameter sets are unbounded, and the estimates are random.", "anchors": ["apop_model.m4.c: apop_parameter_model", "apop_conversions.m4.c: apop_data_pack"], "deviations": ["for one parameter the bootstrap's variance is handed over as the Normal's standard deviation", "for parameters with a matrix the size is rows plus columns, so that dsize is not the number of parameters (except two by two): draws overrun the room made for them from three rows and two columns on", "without data and with such a matrix nothing is written to the PMF's rows: they are what the allocated memory held"]}
{"id": "C126", "title": "What the Normal and Lognormal models report belongs together", "statement": "Estimating a Lognormal gives mean and standard deviation of the logs, the numbers being in the vector or in the matrix; no other mean makes the data likelier, and with numbers in the matrix no other pair. The Normal's likelihood of one number is a density whose mean is mu and whose variance is sd^2. For both models the derivative of apop_cdf is the likelihood of one number, and a draw is at most x exactly when the standard Normal number behind it is at most the argument of the distribution function. The second derivatives of the Normal's likelihood at the estimate (numbers in the matrix) are minus n/sd^2 and minus 2n/sd^2. apop_predict of a Normal gives the mean, which is the expected value of its draws, and the standard deviation of the mean.", "quantifier": "every data set, every mean and positive standard deviation, every number", "why_tests_cant": "Optimality is over all parameters, and the agreement of cdf, likelihood and draws is at every point.", "anchors": ["model/apop_normal.c: get_mu_var, normal_estimate, normal_predict, normal_cdf, normal_rng, lognormal_estimate, lognormal_cdf, lognormal_rng, lognormal_predict, lognormal_prep"], "deviations": ["with numbers in both vector and matrix, estimating either model asks for row -1 of the matrix: GSL stops the program", "the Normal's covariance page has mean/n for the variance of the mean (sd^2/n), negative for a negative mean, and the variance of the variance, 2 sd^4/(n-1), where that of the standard deviation belongs", "the page called <Covariance> next to a prediction holds a standard deviation", "lognormal_predict, whose value is the expected value of the draws, is never registered: apop_predict of a Lognormal searches for the likeliest number, which is less", "with numbers in the vector the standard deviation divides by n-1"]}
{"id": "C127", "title": "Estimates, distribution functions and draws of the Gamma, Beta, Exponential and Bernoulli models", "statement": "Estimating a Gamma or Beta whose data are in the vector or in the matrix gives the parameters whose mean and variance are the data's (variance over n-1 in the vector, over n in the matrix; for the Beta, a variance small enough for there to be any). For the Gamma, Beta and Exponential apop_cdf at a number is a function whose derivative is the likelihood of that number, in either part; a Bernoulli draw is at most x exactly for the top share apop_cdf(x) of the uniform numbers, and its likelihoods are the steps of the cdf; a Beta draw is the library's first one inside the support.", "quantifier": "every data set, all parameters, every number, every stream of random numbers", "why_tests_cant": "The agreement of cdf and likelihood is at every point, and estimates are for all data.", "anchors": ["model/apop_gamma.c: gamma_est, gamma_cdf", "model/apop_beta.c: beta_estimate, beta_cdf, beta_rng", "model/apop_exponential.c: expo_cdf", "model/apop_bernoulli.c: bernoulli_estimate, bernoulli_cdf, bernoulli_rng"], "deviations": ["Beta, numbers in both parts: the weights are quotients of ints, zero, and both parameters NaN", "Gamma, numbers in both parts: the distance between the parts' means is left out of the variance, which may be zero for data that differ", "the Bernoulli covariance page is the variance of one observation, not (an n-th of it) of the estimate"]}
{"id": "C128", "title": "Testing and repairing covariance matrices", "statement": "apop_matrix_is_positive_semidefinite of a symmetric matrix returns one exactly when the matrix is positive definite, whatever semi is, and zero for no matrix. If apop_matrix_to_positive_semidefinite of a symmetric matrix with a trace other than zero returns, it leaves a symmetric and definite matrix (so that a second call returns zero and leaves it alone) with the size of the old trace, and returns the largest change of an element over the largest element; a definite matrix is left as it was, and zero returned.", "quantifier": "every size, every symmetric matrix, any eigenvectors the library may give, any number of turns", "why_tests_cant": "Definiteness is a statement about all vectors; the sizes and the turns of the loop are unbounded.", "anchors": ["apop_stats.m4.c: apop_matrix_is_positive_semidefinite, apop_matrix_to_positive_semidefinite, biggest_elmt, find_eigens"], "deviations": ["a matrix that is semidefinite but not definite is refused, by the default semi too, and changed by apop_matrix_to_positive_semidefinite", "of a matrix with trace zero apop_matrix_to_positive_semidefinite makes a matrix of zeros, and its assertion stops the program"]}
{"id": "C129", "title": "Multivariate Gamma function", "statement": "Where all the Gammas in it are defined (in particular for a above (p-1)/2), apop_multivariate_gamma(a,p) is the multivariate Gamma function, Gamma_p(a) = pi^((p-1)/2) Gamma(a) Gamma_(p-1)(a-1/2), and apop_multivariate_lngamma the logarithm of its absolute value. If one of the odd-numbered arguments a+(1-j)/2 is zero or a negative whole number, both return NaN.", "quantifier": "every argument, every dimension", "why_tests_cant": "The number of dimensions is unbounded and the arguments are real.", "anchors": ["apop_stats.m4.c: apop_multivariate_gamma, apop_multivariate_lngamma"], "deviations": ["(1-p)/2 is a quotient of ints: poles at even-numbered arguments are not noticed (a = 1/2, p = 2), and the library is called there", "the test converts a double to int, which is undefined from a = 2^31+1 on, where the functions are fine"]}
{"id": "C130", "title": "Entropy of a model", "statement": "For a model without an entropy function of its own apop_model_entropy returns the mean, over the draws, of minus the log likelihood, whose expected value over independent draws is the expected value of minus the log likelihood; when the log likelihoods are the logs of the outcomes' probabilities, that is apop_vector_entropy of the probabilities. For a Normal, apop_model_entropy returns the integral over the line of minus the log likelihood times the density, which has total one.", "quantifier": "every model with finitely many outcomes, every number of draws, every mean and standard deviation", "why_tests_cant": "The expected value is over all the draws, whatever their number, and for the Normal an integral over the line.", "anchors": ["apop_stats.m4.c: apop_model_entropy, norment"], "deviations": ["the manual has a function for apop_pmf models too, but none is registered: the entropy of a PMF comes from random draws, and is in general not that of its probabilities"]}
{"id": "C131", "title": "Likelihoods of one number are probability distributions", "statement": "The likelihood of one number, be it in the vector or in the matrix, is a density under the Exponential (integrated from zero on; mean mu, variance mu^2) and the Uniform (mean (a+b)/2, variance (b-a)^2/12, zero outside [a,b]); the likelihoods of the whole numbers under the Poisson (mean and variance lambda; minus infinity for negative numbers and those more than 1e-4 above a whole one), and of zero and one under the Bernoulli (mean q, variance q(1-q)), add up to one.", "quantifier": "all parameters, and all the numbers at once; the number in the vector or in the matrix", "why_tests_cant": "The totals are over infinitely many numbers.", "anchors": ["model/apop_exponential.c: exponential_log_likelihood", "model/apop_poisson.c: poisson_log_likelihood, apply_me", "model/apop_uniform.c: unif_p, unif_ll", "model/apop_bernoulli.c: bernoulli_log_likelihood"], "deviations": ["the Exponential gives negative numbers likelihoods, above those of all greater numbers and without bound", "the Poisson gives numbers up to 1e-4 above a whole one likelihoods too"]}
