# Formal model of einsteinpy (Rocq / Coq 8.16.1)

`properties.jsonl` lists the properties, `MANIFEST.json` the theorems claimed for each, `AXIOMS.md` what
`Print Assumptions` says for every one of them, `seeded/LOG.jsonl` the wrong programs the theorems were tried on.

## 1. Method

* The model is written function by function in Gallina (`rocq/theories/*Model*.v`); each definition cites the file and
  lines in `/repo/src/einsteinpy` it models and states its simplifications.  Nothing was run: the tie to the code is reading.
* Numbers are the exact reals `R` of the standard library, except where floating point is modelled:
  - C67: decoding of a flat loop counter by `int(t / dims**k)` (Flocq binary64, round to nearest even);
  - C109, C110 (and C111 if present): `utils/dual.py`, `geodesic/utils.py`, `integrators/`, `geodesic/geodesic.py` are modelled a second time
    (`FloatModel.v`, `FloatRK.v`) over an arbitrary arithmetic whose operations may round, underflow and overflow.  The theorems hold for
    every arithmetic satisfying `accurate u` (error at most u (1 + |x|) for each operation with exact result |x| <= 1/u), which is
    proved for exact arithmetic and for every IEEE format with a 4-ulp libm (`FloatIEEE.v`).  Assumed there: nan and inf appear only
    as `Err` (an overflow is treated as a failure, where Python would go on with inf), negation is exact, the inputs are given as floats.
* Exceptions are values (`Res A := Ok a | Err e`, `Base.v`).  Partial operations (division by zero, `log` of a
  non-positive number, an index out of range) return `Err`, never a totalised real, wherever the code would raise or
  produce nan/inf.
* Loops become folds or structural recursion over the same ranges; mutation becomes state passing (integrator state,
  metric-inverse cache, figure contents, numpy array updates).
* A specification is a separate, small definition (usually Coquelicot's `is_derive`, `Cmod`, `locally`, or a textbook
  formula over functions `nat -> nat -> R`) that does not mention the model's helpers.
* A property that the code violates stays in `properties.jsonl` as intended.  The development proves `<name>_refuted` with a
  witness *and* theorems saying exactly what the code does instead; `MANIFEST.json` marks it `partial` with the finding.
* Property theorems live in `P_*.v`: each is closed by `exact`, followed by `Print Assumptions`, with an `Example
  Cxx_nonvacuous` that a concrete non-trivial case meets its hypotheses.  `P_*.v` is generated from `tools/P/*.v.in` by
  `tools/genp.py`, which copies each lemma's *statement*, so the statement a reader sees is the one the kernel checks.

## 2. Structure of the model

| tier | code | model files | proof files |
|------|------|-------------|-------------|
| automatic differentiation | `utils/dual.py` | `DualModel` | `DualSpec DualProofs DualDiff ProgCont` |
| metric callables, momenta | `geodesic/utils.py` | `GeoUtilsModel` | `GeoUtilsSpec GeoUtilsProofs` |
| symplectic integrator | `integrators/utils.py`, `integrators/fantasy.py` | `FantasyModel` | `FantasyProofs FantasyProofs2 FantasyProofs3 FantasyHam FantasySymp WordSeries WordOrder FantasyOrder{,2,3,4} FantasyGlobal{,2,3} FantasyShell FantasySymm{,2,3,4,5} FantasyCyclic FantasyPlane FantasyCircular FantasyRay` |
| geodesics | `geodesic/geodesic.py` | `GeodesicModel` | `GeodesicProofs` |
| Runge-Kutta | `integrators/runge_kutta.py` | `RKModel` | `RKProofs RKOrder RKOrder2 RKProg RKGlobal RKGlobal2` |
| coordinates | `coordinates/{utils,core,conversion,differential}.py`, `units.py` | `CoordModel ConvModel` | `Coord* Conv*` |
| numeric metrics | `metric/{base_metric,schwarzschild,kerr,kerrnewman}.py` | `MetricModel` | `Metric*` |
| symbolic tensors | `symbolic/{tensor,metric,christoffel,riemann,ricci,einstein,stress_energy_momentum,weyl,schouten,vector,helpers}.py` | `SymAlg SymModel SymTensorModel SymCacheModel ObjModel` | `SymLoops SymGeo SymGeo2 SymMove SymConn SymFinal SymPair SymTensorProofs SymCacheProofs ObjProofs` |
| scalars for the above | what sympy supplies | `ExprModel`, `ExprFun` (with function symbols) | `SymWitness SymPairWitness SymTensorWitness` |
| predefined metrics | `symbolic/predefined/*.py` | `PredefModel` | `Predef*`, `Bessel` (Bessel functions by power series) |
| cosmology, embedding, shadow, bodies, errors, lookup | `utils/scalar_factor.py`, `hypersurface/`, `rays/shadow.py`, `bodies.py`, `utils/exceptions.py`, `symbolic/predefined/find.py`, `units.py` | `CosmoModel EmbedModel ShadowModel MiscModel` | `CosmoProofs EmbedProofs ShadowProofs MiscProofs MiscFloat` |
| plotting | `plotting/geodesic/*`, `plotting/fractal.py` | `PlotModel` | `PlotProofs` |

Design decisions worth knowing when reading a statement:

* **Metric callables** given to `Geodesic`/`GeodesicIntegrator` are *programs* (`metricP`): 4x4 arrays of expressions over
  `+ - * /`, unary minus, integer and real powers, `sin cos tan log exp` of the coordinates, i.e. whatever a Python function can do with DualNumbers without
  branching on them.  `meaning` is the real function the program computes, `defined_at` the points where no operation
  fails.  `well_formed` (only the four coordinates occur) and `symmetric_program` are the hypotheses put on a metric.
* **Order of accuracy (C87, C89)**: each stage of a step is the exact flow of a Hamiltonian (`HA`, `HB`, `HC`), so a
  step is a word in exponentials of Lie derivatives.  `WordSeries.v` computes the coefficient of every word of Lie
  derivatives in the Taylor expansion of a composition; the order condition is that the coefficient of a word `w` is
  `1/|w|!`.  Remainders are bounded by local bounds of programs (`ProgCont.v`).
* **Runge-Kutta accuracy (C91, C92)**: time is an extra component; the stages are compared with the exact solution by
  quadratic remainder bounds (coordinate-wise mean values), the residual is bootstrapped and closed by Simpson's rule.
* **SI metrics**: the physical constants `c, G, Cc` (Coulomb) are universally quantified (positivity assumed where needed).
  `np.linalg.inv` is the explicit adjugate inverse, undefined at determinant 0; C124 proves LAPACK's elimination equal to it
  in exact arithmetic, and in the floating-point models the elimination itself is run.
* **Quantities** are (value, scale of the unit in SI, dimension); `quantity_input` decorators are modelled as dimension checks.
* **Symbolic tier**: the algorithms are polymorphic in a record `dops` of scalar operations; theorems assume `dlaws`
  (commutative ring of characteristic 0 up to `keq`, commuting derivations, value-preserving `simplify`, `Matrix.inv`
  correct when it returns).  These laws are *hypotheses of the theorems*, and `ExprModel.v` proves them for expression
  trees read on an open set, for any value-preserving simplifier and any correct inverse oracle, so they are not vacuous.
  The predefined metrics are stated over that instance.
* **Caches** (`MetricTensor._invmetric`): a heap of objects addressed by creation order, so object identity is expressible.

## 3. Trusted base

* Coq 8.16.1's kernel (and `coqc`'s reading of `.vo` files).  No kernel check is switched off; no axiom, `Parameter`,
  `Admitted` or functor of our own.
* Axioms reported by `Print Assumptions` (per theorem in `AXIOMS.md`), all from the standard library:
  `ClassicalDedekindReals.sig_forall_dec`, `ClassicalDedekindReals.sig_not_dec`,
  `FunctionalExtensionality.functional_extensionality_dep`, and for some theorems `Classical_Prop.classic`.
  `vcheck`/`coqchk` list in addition module fields of the libraries used (`RbaseSymbolsImpl`, `RinvImpl`,
  `ssrunder.Under_rel`), which are definitions behind opaque module signatures, not assumptions of ours.
* Libraries: Coq standard library, Coquelicot (derivatives, complex modulus), Flocq (C67 and the IEEE corollaries of C109-C124, C126-C128, C130, C132).
* The reading of the Python code, and the behaviour assumed of externals:
  numpy (elementwise arithmetic, `linspace`, `meshgrid`, broadcasting, `allclose`, `arctan2`; `linalg.inv` is taken to be LAPACK's unblocked
  elimination with partial pivoting, C124),
  scipy (`integrate.RK45`: arbitrary solver object, C18; `newton`: arbitrary result, `fixed_quad`: 5-point Gauss rule,
  `interp1d`: documented rejections, C71/C83/C84),
  sympy (`simplify` value preserving, `Matrix.inv` correct or raising, `tensorproduct/tensorcontraction/permutedims`
  entrywise as documented, `free_symbols` any duplicate-free enumeration, `lambdify` = evaluation),
  astropy (unit conversion is multiplication by the scale, `quantity_input` checks dimensions),
  matplotlib/plotly (a drawing call appends an artist with the data passed; `restyle` of `visible` gives the k-th trace the k-th flag).

**Not modelled**: `plotting` styling (colours, labels other than the geodesic's name, axis cosmetics, saving and showing),
`plotting/{hypersurface,rays}` beyond the data passed on, `examples.py` (a fixed call of `Geodesic`), `ijit.py` (numba
or the identity decorator), numerical values in `constant.py`, `__repr__/__str__` texts (except error messages, C76),
pickling, floating-point rounding (except C67, C109-C124, C126-C128, C130, C132), and performance.

## 4. Plan and method per property

| id | property | modelled | proof |
|----|----------|----------|-------|
