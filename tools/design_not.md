## What is not modelled

* Floating point: all numbers are exact (integers, rationals, an arbitrary real field, or Coq's reals). NaN and infinity are values only where a
  property is about them (`option`, `None`).
* Optimisers (`scipy.optimize.minimize`, `minimize_scalar`), eigenvalue routines (`la.eig`, `la.eigh`), LU factorisation and `KDTree`: their answers are
  arguments of the model. What a theorem needs of them (the value is the objective's, the argument is a minimum, the factors multiply to the
  matrix) is an explicit hypothesis or an explicit definition in a `*Spec.v` file.
* p-values: chi-square, normal, t and F distribution functions of scipy, except that C64-C66 characterise the standard normal.
* libpysal weights objects: a weights object is its dense matrix (or adjacency list, RegWModel), with transform and ids only where used;
  `w_subset`, `w_union` are written from their documentation.
* The text summary except the coefficient table, the table of Chow tests and the choice of rows of the common factor test (OutModel, TypModel),
  the pandas `output` tables except the columns modelled there, file input, `opt.py`
  (optional imports), plotting, timing, random number generation, multiprocessing (a pool is a map).
* Not modelled file by file: error_sp_het_regimes.py and error_sp_hom_regimes.py (bodies; their assembly loop is RegMultiModel), twosls_regimes.py and
  twosls_sp_regimes.py (beyond names, frame and assembly), ml_lag_regimes.py and ml_error_regimes.py (assembly only), sur_lag.py with regimes, dictionaries built from data
  frames (sur_dictxy, sur_dictZ), hac_multi.
* Python semantics used by the model: integer slices beyond the end are cut short, `zip` stops at the shorter list, unbound local variables raise, default
  arguments, aliasing of lists where it matters (C05), truthiness of arrays. Exceptions are values (`None`, `Err`, `Raise`).
