{
"C01": {
"note": "Sound/complete proved for every buildable name set; exact-match preference proved up to 12 characters and refuted for long names (hash collision of case variants)."
},
"C02": {
"note": "All proved except that a NULL title becomes \"(null)\" (refuted)."
},
"C06": {
"note": "Flat-memory model, in place and not."
},
"C14": {
"note": "Height 0 with widening is refuted (counter wrap, UB)."
},
"C15": {
"note": "Adding rows while dropping columns is refuted (heap overrun)."
},
"C21": {
"note": "Threaded loop modelled as an arbitrary interleaving of chunk steps; sums over uninitialised entries, index orientation and several option combinations refuted."
},
"C22": {
"note": "Rectangular data; ragged text refuted."
},
"C23": {
"note": "Doubles as reals. Unweighted draws, exact-zero uniform and vector+matrix output refuted."
},
"C24": {
"note": "Doubles as reals. p proved; the cdf statement is refuted (double summation) and what it computes is proved instead."
},
"C13": {
"note": "By induction over the additions."
}
}