Nothing in the list is considered inexpressible. What the model does not exhibit: wall-clock time (time based termination is
modelled with the clock as an oracle), real parallel evaluation (a runner is an oracle that maps in order), the quality of random
numbers, and the compiled (Cython) variants of the functions.

## 4. Trusted base

* Coq's kernel (8.16.1) and, for the closed terms evaluated in examples, its reduction machines (`vm_compute` is part of the kernel).
* The reading of the Python source: that each model definition says what the cited lines do. numpy, scipy and moocore are not verified;
  what is assumed about them is said at the definition (`argsort`, `lexsort`, `cdist`, broadcasting, `np.unique`, ...).
* The assumptions of each theorem, section 6. No axiom is declared in this development; every section variable is generalised into a
  premise when its section closes.

Not modelled at all: visualisation, display output, callbacks changing the algorithm, problem definitions (test problems), the vendored
packages (`vendor/`), gradient toolboxes, CMA-ES, `experimental/`, the parallelisation back ends beyond their mapping contract,
pickling/checkpointing, and everything not named in section 5.
