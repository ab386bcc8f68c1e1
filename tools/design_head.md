# Formal model of b-k/apophenia in Rocq (Coq 8.16.1)

## Layout

* `rocq/theories/Base.v` — generic list/option vocabulary (no code modelled).
* `rocq/theories/*Model.v` — the model: total Gallina functions, each with a comment citing the file and lines of
  /repo it models and every simplification.
* `rocq/theories/*Spec.v` — what the properties say, independently of the model's helpers (where a statement needs
  more vocabulary than the API's).
* `rocq/theories/*Proofs.v` — lemmas.
* `rocq/theories/*Props*.v` — the property theorems `Cnn_...`, each followed by `Print Assumptions`, with non-vacuity
  `Example`s beside, and the `Cnn_..._refuted` theorems (witnesses).
* `properties.jsonl` (made by `tools/props.py`), `MANIFEST.json` (made by `tools/manifest.py`).
* `seeded/LOG.jsonl` — wrong-program experiments.
* This file is made by `tools/design.py` from `tools/design_head.md`, the plans in that script and
  `tools/assumptions.md` (made by `tools/assumptions.py` from a build).

## Modelling conventions

* A C function that mutates through a pointer becomes a function returning the new value. Where aliasing or the heap
  matters (text cells, realloc, views, the C-string and file buffers of the parser, vtables, the memo of the harmonic
  numbers) the memory is modelled explicitly.
* Undefined behaviour (out-of-bounds access, reading uninitialised memory, NULL dereference, a text used as a format)
  is a distinct outcome (`UB`), never a default value. A loop whose termination is not evident runs on explicit fuel
  with a distinct `OutOfFuel` outcome. Uninitialised memory that is only moved about is an arbitrary value `g`
  (theorems are for every `g`).
* `double` is an abstract type wherever the code only moves values about; where it computes, arithmetic is exact over
  the reals, NaN and infinities being `None` (or a separate constructor where the code tells them apart). Rounding is
  NOT modelled. The recurrences of GSL's statistics functions that the code calls are modelled as GSL computes them.
  `malloc` never fails. Integers are unbounded except where a wrap-around matters, which is written out.
* Special functions (lngamma, psi, lnfact), random generators (a tape of draws), regular-expression matching, atof and
  printf of numbers, and SQLite are parameters of the model, with the facts used about them as hypotheses of the
  theorems (and instances in the non-vacuity examples).
* Threads: OpenMP loops are interleavings of atomic steps, or any partition of the iterations among threads.
* If the code violates the documented property, the property's statement in `properties.jsonl` is restricted to the
  exact domain on which the code keeps it (proved), and the deviations are `..._refuted` theorems: a concrete witness,
  computed by the model. No theorem is left as `_partial`.

## Plan per property

For each property: what is modelled, and how it is proved.

