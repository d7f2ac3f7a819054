# Formal model of pymoo in Rocq (Coq 8.16.1)

## 1. Method

* `/verif/properties.jsonl` lists the properties (C01, C02, ...), `/verif/MANIFEST.json` maps them to theorems.
* `rocq/theories/` holds, for every area `X`
  * `M_X.v`  - the model: small total Gallina functions mirroring the Python functions, every definition
    citing file and lines in `/repo`; no proofs about properties;
  * `S_X.v`  - the specification (independent of the model's helpers); small specifications stand at the head of `Thm_X.v`;
  * `P_X.v`  - lemmas and proofs;
  * `Thm_X.v` - the property theorems, followed by `Print Assumptions`, and the examples (`..._case`, `..._example`) showing that
    the hypotheses are met by concrete non-trivial inputs.
* Claims that are false of the code are recorded as theorems `..._refuted` with a concrete witness, and the property is then
  `partial` unless its statement in properties.jsonl excludes that case.
* Partially proved claims carry the suffix `_partial`.
* `seeded/LOG.jsonl` records the wrong programs the theorems were tested against.

## 2. Modelling decisions

* **Numbers.** A numpy float is modelled by `flt := SpecFloat.spec_float` (Coq standard library: signed zeros,
  infinities, NaN, binary64 finite numbers) with the IEEE comparisons `SFltb`, `SFleb`, `SFeqb`. Everything that
  only *compares* floats (dominance, sorting, survival, clamping, tournaments, archives, ...) is therefore modelled
  without any idealisation, NaN included. Code that does *arithmetic* is modelled (a) with the arithmetic as
  an arbitrary function (oracle), when the property does not depend on it (e.g. clamping after SBX), or (b) over exact
  rationals `Q` / integers (rounding error is then not modelled; said in the comment), or (c) with an arbitrary monotone rounding after
  every operation (decompositions), or (d) with binary64 operations of `SpecFloat` / Flocq where rounding is the point.
* **Arrays** are lists; a matrix is a list of rows, its rectangularity is a hypothesis of the theorem.
* **numpy.argsort / lexsort / argmin** - unstable sorting is modelled by *any* function returning a permutation of the
  indices that sorts the keys (a section variable that becomes an explicit premise of the theorem, and is shown
  to be satisfiable by an insertion-sort instance). `argmin` is the first minimum.
* **Randomness** - a random generator is an oracle: the random values are explicit universally quantified arguments
  (arbitrary lists/functions/permutations in the documented range). Where the source of randomness is the point (C51), an operator is a
  program in a state monad over named generators.
* **External code** (moocore `pareto_rank`, `is_nondominated`, scipy `cdist`) - premises stating their documented contract.
* **Objects** - an `Individual` is a record; object identity, where it matters, is an explicit reference into a heap. In-place mutation
  is a function returning the new value / store.
* **Loops** - `for` loops are folds, `while` loops are fuelled recursion with an explicit out-of-fuel result that theorems
  exclude (fuel adequacy is proved, i.e. termination).
* **Exceptions/assertions** are explicit error results (`option`/`result`).
