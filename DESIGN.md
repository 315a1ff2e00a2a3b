# Formal model of einsteinpy (Rocq / Coq 8.16.1)

`properties.jsonl` lists the properties, `MANIFEST.json` the theorems claimed for each, `AXIOMS.md` what
`Print Assumptions` says for every one of them, `seeded/LOG.jsonl` the wrong programs the theorems were tried on.

## 1. Method

* The model is written function by function in Gallina (`rocq/theories/*Model*.v`); each definition cites the file and
  lines in `/repo/src/einsteinpy` it models and states its simplifications.  Nothing was run: the tie to the code is reading.
* Numbers are the exact reals `R` of the standard library, except where floating point is modelled:
  - C67: decoding of a flat loop counter by `int(t / dims**k)` (Flocq binary64, round to nearest even);
  - C109, C110 (and C111 if present): `utils/dual.py`, `geodesic/utils.py`, `integrators/`, `geodesic/geodesic.py` are modelled a second time
    (`FloatModel.v`, `FloatRK.v`) over an arbitrary arithmetic whose operations may round, underflow and overflow.  The theorems hold for
    every arithmetic satisfying `accurate u` (error at most u (1 + |x|) for each operation with exact result |x| <= 1/u), which is
    proved for exact arithmetic and for every IEEE format with a 4-ulp libm (`FloatIEEE.v`).  Assumed there: nan and inf appear only
    as `Err` (an overflow is treated as a failure, where Python would go on with inf), negation is exact, the inputs are given as floats.
* Exceptions are values (`Res A := Ok a | Err e`, `Base.v`).  Partial operations (division by zero, `log` of a
  non-positive number, an index out of range) return `Err`, never a totalised real, wherever the code would raise or
  produce nan/inf.
* Loops become folds or structural recursion over the same ranges; mutation becomes state passing (integrator state,
  metric-inverse cache, figure contents, numpy array updates).
* A specification is a separate, small definition (usually Coquelicot's `is_derive`, `Cmod`, `locally`, or a textbook
  formula over functions `nat -> nat -> R`) that does not mention the model's helpers.
* A property that the code violates stays in `properties.jsonl` as intended.  The development proves `<name>_refuted` with a
  witness *and* theorems saying exactly what the code does instead; `MANIFEST.json` marks it `partial` with the finding.
* Property theorems live in `P_*.v`: each is closed by `exact`, followed by `Print Assumptions`, with an `Example
  Cxx_nonvacuous` that a concrete non-trivial case meets its hypotheses.  `P_*.v` is generated from `tools/P/*.v.in` by
  `tools/genp.py`, which copies each lemma's *statement*, so the statement a reader sees is the one the kernel checks.

## 2. Structure of the model

| tier | code | model files | proof files |
|------|------|-------------|-------------|
| automatic differentiation | `utils/dual.py` | `DualModel` | `DualSpec DualProofs DualDiff ProgCont` |
| metric callables, momenta | `geodesic/utils.py` | `GeoUtilsModel` | `GeoUtilsSpec GeoUtilsProofs` |
| symplectic integrator | `integrators/utils.py`, `integrators/fantasy.py` | `FantasyModel` | `FantasyProofs FantasyProofs2 FantasyProofs3 FantasyHam FantasySymp WordSeries WordOrder FantasyOrder{,2,3,4} FantasyGlobal{,2,3} FantasyShell FantasySymm{,2,3,4,5} FantasyCyclic FantasyPlane FantasyCircular FantasyRay` |
| geodesics | `geodesic/geodesic.py` | `GeodesicModel` | `GeodesicProofs` |
| Runge-Kutta | `integrators/runge_kutta.py` | `RKModel` | `RKProofs RKOrder RKOrder2 RKProg RKGlobal RKGlobal2` |
| coordinates | `coordinates/{utils,core,conversion,differential}.py`, `units.py` | `CoordModel ConvModel` | `Coord* Conv*` |
| numeric metrics | `metric/{base_metric,schwarzschild,kerr,kerrnewman}.py` | `MetricModel` | `Metric*` |
| symbolic tensors | `symbolic/{tensor,metric,christoffel,riemann,ricci,einstein,stress_energy_momentum,weyl,schouten,vector,helpers}.py` | `SymAlg SymModel SymTensorModel SymCacheModel ObjModel` | `SymLoops SymGeo SymGeo2 SymMove SymConn SymFinal SymPair SymTensorProofs SymCacheProofs ObjProofs` |
| scalars for the above | what sympy supplies | `ExprModel`, `ExprFun` (with function symbols) | `SymWitness SymPairWitness SymTensorWitness` |
| predefined metrics | `symbolic/predefined/*.py` | `PredefModel` | `Predef*`, `Bessel` (Bessel functions by power series) |
| cosmology, embedding, shadow, bodies, errors, lookup | `utils/scalar_factor.py`, `hypersurface/`, `rays/shadow.py`, `bodies.py`, `utils/exceptions.py`, `symbolic/predefined/find.py`, `units.py` | `CosmoModel EmbedModel ShadowModel MiscModel` | `CosmoProofs EmbedProofs ShadowProofs MiscProofs MiscFloat` |
| plotting | `plotting/geodesic/*`, `plotting/fractal.py` | `PlotModel` | `PlotProofs` |

Design decisions worth knowing when reading a statement:

* **Metric callables** given to `Geodesic`/`GeodesicIntegrator` are *programs* (`metricP`): 4x4 arrays of expressions over
  `+ - * /`, unary minus, integer and real powers, `sin cos tan log exp` of the coordinates, i.e. whatever a Python function can do with DualNumbers without
  branching on them.  `meaning` is the real function the program computes, `defined_at` the points where no operation
  fails.  `well_formed` (only the four coordinates occur) and `symmetric_program` are the hypotheses put on a metric.
* **Order of accuracy (C87, C89)**: each stage of a step is the exact flow of a Hamiltonian (`HA`, `HB`, `HC`), so a
  step is a word in exponentials of Lie derivatives.  `WordSeries.v` computes the coefficient of every word of Lie
  derivatives in the Taylor expansion of a composition; the order condition is that the coefficient of a word `w` is
  `1/|w|!`.  Remainders are bounded by local bounds of programs (`ProgCont.v`).
* **Runge-Kutta accuracy (C91, C92)**: time is an extra component; the stages are compared with the exact solution by
  quadratic remainder bounds (coordinate-wise mean values), the residual is bootstrapped and closed by Simpson's rule.
* **SI metrics**: the physical constants `c, G, Cc` (Coulomb) are universally quantified (positivity assumed where needed).
  `np.linalg.inv` is the explicit adjugate inverse, undefined at determinant 0; C124 proves LAPACK's elimination equal to it
  in exact arithmetic, and in the floating-point models the elimination itself is run.
* **Quantities** are (value, scale of the unit in SI, dimension); `quantity_input` decorators are modelled as dimension checks.
* **Symbolic tier**: the algorithms are polymorphic in a record `dops` of scalar operations; theorems assume `dlaws`
  (commutative ring of characteristic 0 up to `keq`, commuting derivations, value-preserving `simplify`, `Matrix.inv`
  correct when it returns).  These laws are *hypotheses of the theorems*, and `ExprModel.v` proves them for expression
  trees read on an open set, for any value-preserving simplifier and any correct inverse oracle, so they are not vacuous.
  The predefined metrics are stated over that instance.
* **Caches** (`MetricTensor._invmetric`): a heap of objects addressed by creation order, so object identity is expressible.

## 3. Trusted base

* Coq 8.16.1's kernel (and `coqc`'s reading of `.vo` files).  No kernel check is switched off; no axiom, `Parameter`,
  `Admitted` or functor of our own.
* Axioms reported by `Print Assumptions` (per theorem in `AXIOMS.md`), all from the standard library:
  `ClassicalDedekindReals.sig_forall_dec`, `ClassicalDedekindReals.sig_not_dec`,
  `FunctionalExtensionality.functional_extensionality_dep`, and for some theorems `Classical_Prop.classic`.
  `vcheck`/`coqchk` list in addition module fields of the libraries used (`RbaseSymbolsImpl`, `RinvImpl`,
  `ssrunder.Under_rel`), which are definitions behind opaque module signatures, not assumptions of ours.
* Libraries: Coq standard library, Coquelicot (derivatives, complex modulus), Flocq (C67 and the IEEE corollaries of C109-C124, C126-C128, C130, C132).
* The reading of the Python code, and the behaviour assumed of externals:
  numpy (elementwise arithmetic, `linspace`, `meshgrid`, broadcasting, `allclose`, `arctan2`; `linalg.inv` is taken to be LAPACK's unblocked
  elimination with partial pivoting, C124),
  scipy (`integrate.RK45`: arbitrary solver object, C18; `newton`: arbitrary result, `fixed_quad`: 5-point Gauss rule,
  `interp1d`: documented rejections, C71/C83/C84),
  sympy (`simplify` value preserving, `Matrix.inv` correct or raising, `tensorproduct/tensorcontraction/permutedims`
  entrywise as documented, `free_symbols` any duplicate-free enumeration, `lambdify` = evaluation),
  astropy (unit conversion is multiplication by the scale, `quantity_input` checks dimensions),
  matplotlib/plotly (a drawing call appends an artist with the data passed; `restyle` of `visible` gives the k-th trace the k-th flag).

**Not modelled**: `plotting` styling (colours, labels other than the geodesic's name, axis cosmetics, saving and showing),
`plotting/{hypersurface,rays}` beyond the data passed on, `examples.py` (a fixed call of `Geodesic`), `ijit.py` (numba
or the identity decorator), numerical values in `constant.py`, `__repr__/__str__` texts (except error messages, C76),
pickling, floating-point rounding (except C67, C109-C124, C126-C128, C130, C132), and performance.

## 4. Plan and method per property

| id | property | modelled | proof |
|----|----------|----------|-------|
| C01 | Forward-mode AD is exact (proved, 6 theorems) | DualNumber operators with Python dispatch between float and DualNumber; programs as an AST interpreted through that dispatch | induction on the AST against Coquelicot `is_derive` |
| C02 | AD at removable 0/0 points (partial, 2 theorems) | the `0/0` branch of `__truediv__` | limit proved; derivative refuted by witness |
| C03 | DualNumber arithmetic laws (proved, 16 theorems) | dual operators | field identities over all duals |
| C04 | Metric Jacobian (proved, 7 theorems) | `_jacobian_g` over metric programs | corollary of C01 per component |
| C05 | Built-in contravariant metrics are right (proved, 5 theorems) | `_sch`, `_kerr`, `_kerrnewman` as programs | explicit covariant line elements as spec; matrix product = identity by `field` |
| C06 | Initial 4-momentum is on shell (proved, 5 theorems) | `_P` | root of the quadratic |
| C07 | Initial 4-momentum for user-supplied metrics (partial, 2 theorems) | `_P` with an arbitrary metric | exact defect; refuted |
| C08 | Mixed flow is the exact coupling rotation (proved, 7 theorems) | `_flow_mixed` | linear algebra, ODE of the coupling Hamiltonian |
| C09 | Half flows are exact Hamiltonian flows (proved, 5 theorems) | `_flow_A`, `_flow_B` | `is_derive` of the flows against Hamilton's equations |
| C10 | Integrator is time reversible (proved, 1 theorems) | `_ord_2.._ord_8` | palindromic compositions, induction |
| C11 | Conserved momenta of cyclic coordinates (proved, 4 theorems) | steps on a metric without one coordinate | induction over stages and steps |
| C12 | Yoshida coefficients (proved, 5 theorems) | `_Z` | real powers |
| C13 | Orders 6 and 8 satisfy the order-4 condition (partial, 3 theorems) | substep weight lists | refuted for orders 6/8, explicit metric witness |
| C14 | Integrator history bookkeeping (partial, 5 theorems) | `GeodesicIntegrator.step` state machine | induction over step sequences |
| C15 | Geodesic construction contract (partial, 14 theorems) | `Geodesic.__init__`, `calculate_trajectory` | induction over the loop |
| C16 | RK4naive update is classical RK4 (proved, 5 theorems) | `RK4naive.step` | algebra |
| C17 | RK4naive respects t_bound (partial, 3 theorems) | `RK4naive` stop test | refuted; characterisation |
| C18 | RK45 wrapper never raises on a finished solver (proved, 5 theorems) | `RK45` wrapper, solver as oracle | case analysis for every oracle |
| C19 | Cartesian to spherical and back (proved, 1 theorems) | `cartesian_to_spherical` | trigonometry with explicit `atan2` |
| C20 | Spherical to Cartesian and back (proved, 1 theorems) | `spherical_to_cartesian` | same |
| C21 | Cartesian/spherical velocities obey the chain rule (proved, 4 theorems) | velocity maps | Coquelicot derivative along curves |
| C22 | Cartesian/Boyer-Lindquist position round trip (proved, 4 theorems) | `cartesian_to_bl`, `bl_to_cartesian` | algebra with square roots |
| C23 | Boyer-Lindquist velocities obey the chain rule (proved, 4 theorems) | BL velocity maps | derivative along curves |
| C24 | BL azimuthal velocity is available wherever it is defined (partial, 3 theorems) | `v_phi` formula | exact definedness; refuted |
| C25 | Zero spin makes BL spherical (proved, 4 theorems) | BL with a=0 | algebra |
| C26 | Conversion objects dispatch (proved, 6 theorems) | Conversion classes | case analysis |
| C27 | Coordinates are independent of the units used (proved, 11 theorems) | Quantity as value/scale/dimension | scaling argument |
| C28 | Metric parameters are independent of the units used (partial, 3 theorems) | `schwarzschild_radius`, `alpha` | refuted; characterised |
| C29 | 4-velocity normalisation (proved, 8 theorems) | `velocity`/`_v0` of differentials | quadratic root |
| C30 | Coordinate subscripting (proved, 6 theorems) | `__getitem__`, `position` | case analysis |
| C31 | Lorentz factor (proved, 3 theorems) | `lorentz_factor` | algebra |
| C32 | Spin validation and horizon helper functions (proved, 4 theorems) | `alpha`, `sigma`, `delta`, `rho` helpers | algebra |
| C33 | Reported singularities are the horizons and ergospheres (proved, 4 theorems) | `singularities` | roots of the horizon/ergosphere equations |
| C34 | Schwarzschild connection (proved, 3 theorems) | Schwarzschild `_christoffels` | derivatives of the metric, Levi-Civita uniqueness formula |
| C35 | Kerr metric derivatives (partial, 2 theorems) | Kerr `_dg_dx` | `is_derive` per entry; one refuted |
| C36 | Kerr-Newman metric derivatives (proved, 3 theorems) | Kerr-Newman `_dg_dx` | `is_derive` per entry |
| C37 | Kerr-Newman metric depends on the charge (partial, 6 theorems) | Kerr-Newman `metric_covariant` | refuted; equality with Kerr |
| C38 | Sparse Christoffel evaluation is complete (proved, 5 theorems) | sparse loops over Christoffel indices | exhaustive finite index sweep lifted to all arguments |
| C39 | Geodesic right-hand side (proved, 5 theorems) | `_f_vec` | unfolding to the geodesic equation |
| C40 | Geodesic flow preserves the norm (partial, 4 theorems) | norm along solutions of `_f_vec` | derivative of g(v,v) along the flow |
| C41 | Electromagnetic tensor is the exterior derivative of the potential (partial, 6 theorems) | `em_tensor_*` | derivative of the potential per entry |
| C42 | Lorentz force preserves the norm (partial, 3 theorems) | charged `_f_vec` | derivative of g(v,v) |
| C43 | Covariant and contravariant metrics are inverse (proved, 6 theorems) | `metric_contravariant` | adjugate inverse |
| C44 | Symbolic Christoffel symbols (proved, 9 theorems) | `ChristoffelSymbols.from_metric` loop | any dimension, differential ring: torsion-free, metric, unique |
| C45 | Symbolic Riemann tensor (proved, 3 theorems) | `RiemannCurvatureTensor.from_metric/from_christoffels` | formula and all symmetries, any dimension |
| C46 | Symbolic Ricci tensor and scalar (proved, 2 theorems) | `RicciTensor`, `RicciScalar` | contractions, symmetry |
| C47 | Einstein tensor is divergence free (proved, 1 theorems) | `EinsteinTensor` | contracted Bianchi identity in any dimension |
| C48 | Stress-energy tensor (proved, 1 theorems) | `StressEnergyMomentumTensor` | algebra |
| C49 | Weyl tensor (proved, 3 theorems) | `WeylTensor` | trace freeness and symmetries |
| C50 | Schouten decomposition (proved, 2 theorems) | `SchoutenTensor` | Riemann = Weyl + Schouten decomposition |
| C51 | Index raising and lowering round trip (proved, 8 theorems) | `_change_config` | list induction over index positions |
| C52 | Tensor product and contraction (proved, 3 theorems) | `tensor_product` with contraction | multi-index sums |
| C53 | Index arguments of tensor_product are honoured (partial, 2 theorems) | index arguments of `tensor_product` | case analysis; refuted |
| C54 | Lorentz transforms (proved, 5 theorems) | `lorentz_transform` | multi-index sums |
| C55 | Lorentz transforms preserve invariants (partial, 3 theorems) | same | exact condition; refuted |
| C56 | Metric inverse caching (partial, 11 theorems) | `MetricTensor.inv/lower_config` heap | invariant over every call history |
| C57 | Tensor construction checks (proved, 5 theorems) | `Tensor.__init__`, `BaseRelativityTensor` | case analysis |
| C58 | Substitution keeps the tensor's configuration (partial, 2 theorems) | `subs` | refuted; characterised |
| C59 | Transformation matrix inverse (partial, 5 theorems) | `TransformationMatrix.inv` | refuted; characterised |
| C60 | Array simplification is shape preserving and lossless (proved, 5 theorems) | `simplify_sympy_array` | list induction over shapes |
| C61 | Flat-space and constant-curvature predefined metrics (proved, 5 theorems) | Minkowski*, AntiDeSitter* | curvature of the library's own constructors on expression trees |
| C62 | Schwarzschild is a vacuum solution (proved, 1 theorems) | `Schwarzschild` (predefined) | Ricci = 0 at every chart point |
| C63 | De Sitter metric is de Sitter (partial, 3 theorems) | `DeSitter` | Ricci computed exactly; refuted |
| C64 | Predefined solutions specialise correctly (partial, 10 theorems) | limits of parameters | entrywise equality; one refuted |
| C65 | Alcubierre shape function depends on Euclidean distance (partial, 6 theorems) | `AlcubierreWarp` | exact condition; refuted |
| C66 | find() (proved, 8 theorems) | `find`, `get_predefined...` | list induction over any name list |
| C67 | Flat loop index decoding (proved, 7 theorems) | `int(t / dims**k) % dims` | Flocq error analysis |
| C68 | Cosmological scale factor derivative (proved, 6 theorems) | `scalar_factor` | Coquelicot derivative |
| C69 | Embedding sampling (partial, 8 theorems) | `SchwarzschildEmbedding` sampling | loop induction |
| C70 | Embedding is isometric (partial, 8 theorems) | `gradient` | algebra, refuted |
| C71 | Shadow arrays stay aligned (proved, 5 theorems) | `Shadow` arrays, `smoothen` | list induction for any `newton` |
| C72 | Plotted ergosphere is the metric's ergosphere (partial, 8 theorems) | `_draw_bh` | algebra, refuted |
| C73 | Plotter argument checks (proved, 7 theorems) | plotters' checks and curves | effects on the figure as lists of artists |
| C74 | Fractal image (proved, 8 theorems) | `fractal` | Coquelicot complex numbers, loop induction |
| C75 | primitive strips units in order (proved, 1 theorems) | `primitive` | list induction |
| C76 | Error messages keep all arguments (proved, 3 theorems) | exception classes | string lemmas |
| C77 | Body state (proved, 2 theorems) | `Body` | case analysis |
| C78 | Lambdified argument order (proved, 6 theorems) | `tensor_lambdify` | permutation argument |
| C79 | Kerr is a vacuum solution (proved, 1 theorems) | `Kerr` (predefined) | Ricci = 0 by a certified Christoffel table |
| C80 | Charged predefined black holes are electrovacuum (proved, 5 theorems) | `ReissnerNordstorm`, `KerrNewman` | mixed Ricci, Rainich conditions |
| C81 | Other predefined metrics solve their field equations (proved, 7 theorems) | Godel, C-metric, Ernst, Davidson, Barriola-Vilenkin, Bertotti-Kasner | Ricci per metric |
| C82 | JanisNewmanWinicour is a scalar-field solution (partial, 3 theorems) | `JanisNewmanWinicour` | exact Ricci; refuted unless c^2 = 1 |
| C83 | Shadow intensities are positive (proved, 6 theorems) | `Shadow` intensities | closed form of the integrands, positivity |
| C84 | Shadow turning points (partial, 4 theorems) | `_root_equation` | exact condition; refuted |
| C85 | Interactive figures accumulate (partial, 5 theorems) | histories of plotter calls | induction over call histories; refuted for failed plot2D |
| C86 | Animation shows the whole trajectory (partial, 5 theorems) | `animate` | limits, frames; refuted |
| C87 | Order of accuracy of the symplectic integrator (proved, 3 theorems) | one step of every order | word series of Lie derivatives + Taylor remainders |
| C88 | The integrator step is a symplectic map (proved, 2 theorems) | one step of every order | chain rule along tangent curves, stage by stage |
| C89 | Computed trajectories converge to the geodesic (proved, 1 theorems) | `calculate_trajectory` with any step count | local consistency and Lipschitz bound uniform on a compact tube (real induction), discrete Gronwall over the steps |
| C90 | Tensor objects through histories of operations (partial, 11 theorems) | `change_config`, `lorentz_transform`, constructors and names of every tensor class as object operations | induction over the operation list; refuted for the stress-energy tensor |
| C91 | A Runge-Kutta step is accurate to fifth order in the step size (proved, 4 theorems) | one `RK4naive.step` on an arbitrary right-hand side | time added as a component; quadratic remainder by coordinate-wise mean value theorem; stage residuals bootstrapped against the solution at t, t+h/2, t+h, Simpson's rule |
| C92 | Runge-Kutta integration converges with order four (proved, 2 theorems) | n-fold `RK4naive.step` | C91 uniform on the compact interval (real induction), Lipschitz bound of a step, discrete Gronwall |
| C93 | Computed trajectories stay on the mass shell (proved, 2 theorems) | `calculate_trajectory`, all rows | chain rule along Hamilton's equations; C89 and a uniform Lipschitz bound of the Hamiltonian on a compact tube |
| C94 | BesselGravitationalWave is a vacuum solution (partial, 4 theorems) | `BesselGravitationalWave` in a symbolic domain extended by function symbols with differentiation rules; Bessel functions as power series | Ricci tensor of the general wave metric in closed form; Bessel's equation for the published metric; intermediate value/mean value argument between orders 1 and 2 for the coded one |
| C95 | Energy and angular momentum are constants of motion (partial, 5 theorems) | `f_vec` of the three classes | metric independent of t and phi, so the lowered geodesic equation has zero right-hand side; Kerr: exact drift from the entry of C35 |
| C96 | Computed geodesics respect the symmetries of spacetime (proved, 10 theorems) | `Geodesic.__init__`, `calculate_trajectory`, the integrator, the three built-in metrics as programs | equivariance of each sub-flow under signed affine maps, induction over rows; parity of the metric programs by a syntactic predicate |
| C97 | Momenta of cyclic coordinates are kept along computed rows (proved, 2 theorems) | `calculate_trajectory`, all rows | Hamilton's equations and the mean value theorem; C89 |
| C98 | Equatorial orbits stay equatorial, radial orbits stay radial (proved, 5 theorems) | `Geodesic.__init__`, `calculate_trajectory`, `examples.precession` | fixed points of the reflection of C96; an invariant kept by every sub-flow |
| C99 | Circular orbits and light rays of the built-in black holes (proved, 7 theorems) | `Geodesic.__init__`, `_P`, `calculate_trajectory`, the built-in metrics | explicit solutions of Hamilton's equations in the Kerr-Newman family, then C89 |
| C100 | Without spin, Kerr and Kerr-Newman are Schwarzschild (proved, 5 theorems) | `metric_covariant`, `christoffels`, `f_vec`, `singularities` of the three classes | arrays compared entry by entry; uniqueness of inverse, gradient and Levi-Civita connection for the Christoffel symbols |
| C101 | Kerr and Kerr-Newman agree on uncharged particles (partial, 3 theorems) | same | difference of the two Christoffel arrays from C35's entry, then of the accelerations |
| C102 | TransformationMatrix.from_new2old is the inverse Jacobian (partial, 6 theorems) | SymTransform.v: from_new2old as the entrywise reciprocal of the partial derivatives, __new__'s rank check, from_old2new | algebra over dlaws: entries, inv(), diagonal of the product = n (C102_entries, C102_never_inverse); C102_jacobian_refuted gives a linear change of coordinates whose Jacobian is invertible; right in one dimension (C102_one_dimension) |
| C103 | General covariance of the curvature classes (proved, 11 theorems) | SymCov.v, SymCov2.v (coord_change: a ring homomorphism obeying the chain rule; pull: the tensor transformation law), SymCovInst.v (substitution of expressions for coordinates) | connection law by cancelling the metric, curvature law by differentiating it, traces and products by induction over configurations; the expression domain satisfies coord_change for every substitution by induction over expressions (C103_substitution); MinkowskiPolar from MinkowskiCartesian (C103_minkowski_polar, C103_nonvacuous) |
| C104 | Conformal invariance of the Weyl tensor (proved, 5 theorems) | SymConf.v on top of the modelled constructors of SymModel.v | lowered Riemann tensor of f g = f (Riemann + Kulkarni-Nomizu(T, g)) by the explicit connection; both Weyl tensors are trace-free, and a trace-free Kulkarni-Nomizu product vanishes when n >= 3; configurations by induction |
| C105 | Geodesic and the metric classes' f_vec describe the same motion (partial, 8 theorems) | MetricHamilton.v, MetricHamilton2.v on top of MetricModel.v (f_vec) and FantasyModel.v/GeodesicModel.v (Hamiltonian integrator) | Hamilton's equations of the inverse metric are the geodesic equation (derivative of an inverse matrix; momentum = lowered velocity), transported to SI units by the scaling (GM/c^3, GM/c^2, 1, 1); then C93's convergence theorem. Kerr: exact condition from C101 |
| C106 | RK4naive on f_vec converges to the motion and agrees with Geodesic (proved, 4 theorems) | MetricRK.v: f_vec as the 8-component right-hand side given to RKModel.v's RK4naive | the right-hand side equals an expression program wherever it is defined (implements), so C91/C92's order-4 convergence applies; the triangle inequality with C105 |
| C107 | The initial value problems solved have exactly one solution, and the solvers find it (proved, 8 theorems) | Picard.v, PicardProg.v on top of FantasyModel.v, GeodesicModel.v, RKModel.v, MetricModel.v | Picard iteration for locally bounded and Lipschitz right-hand sides (programs are, by ProgCont.v); uniqueness because both solutions are the limit of the same computed rows (C93, C91); f_vec through MetricRK.v's implementing programs |
| C108 | Symbolic, numeric and geodesic descriptions of the black holes agree (partial, 13 theorems) | PredefNum.v: PredefModel.v (symbolic predefined metrics) against MetricModel.v (numeric classes) and GeoUtilsModel.v (geodesic) | entrywise field identities; a metric that is a constant multiple of another has the same connection (uniqueness of derivatives and of the matrix inverse), so the symbolic Christoffel table equals the numeric array |
| C109 | Rounding errors of Geodesic (proved, 11 theorems) | FloatModel.v (the programs of DualModel, FantasyModel, GeodesicModel over an arbitrary arithmetic), FloatIEEE.v (IEEE formats, Flocq) | FloatExact.v: on exact arithmetic they are the exact models; FloatTrack.v: each operation keeps |computed - exact| <= C u, along a filter of arithmetics and inputs; FloatGlobal.v: uniform along the motion by real induction, perturbed discrete Gronwall inequality; FloatTraj.v, FloatMain.v: P, cartesian output, named black holes with C107's existence theorem |
| C110 | Rounding errors of automatic differentiation and of the metrics (proved, 9 theorems) | FloatModel.v, FloatTraj.v, FloatMain.v | the same tracking for single evaluations; true derivatives by DualDiff.v |
| C111 | RK4naive in floating point: time and solution within K (e0 + |h|^4 + u/|h|), and within C u of the exact run (proved, 5 theorems) | FloatRK.v: RK4naive over an arbitrary arithmetic, the right-hand side a list of programs, arrays as lists of floats | FloatRK2.v: tracking of one step (FloatTrack.v); time becomes component 0 of an autonomous system so that its rounding is covered; uniform along the solution by real induction; signed-step perturbed Gronwall inequality; run against run by induction on the steps |
| C112 | Computed orbits keep the constants of motion of their black hole (proved, 7 theorems) | Geodesic with the named metrics in any accurate arithmetic (FloatModel.v), exact motion by Hamilton's equations; Carter's quantity and the angular momentum vector as programs | separated form of the inverse metric (field), derivative along the motion is 0, mean value theorem; uniform Lipschitz bound of a program along the motion by real induction; rounding theorem C109 |
| C113 | The coordinate conversions in floating point (proved, 20 theorems) | FloatCoordModel.v: the conversions of coordinates/utils.py over an arbitrary arithmetic with hypot, arctan2 and arccos | FloatCoord.v: tracking of each operation along a filter of arithmetics and inputs; FloatCoordMain.v: the explicit bounds, round trips composed with the exact inverses C19-C23; FloatCoordExact.v: the programs in exact arithmetic are the exact models; FloatCoordIEEE.v: IEEE formats (Flocq) |
| C114 | cartesian_to_bl gives numbers on the rotation axis (partial, 4 theorems) | cart_to_blB in binary64 (Flocq), any libm whose hypot and sqrt are right on this point | the six roundings computed exactly; arccos of a number above 1 is nan |
| C115 | The numeric metric classes in floating point (proved, 17 theorems) | FloatMetricModel.v: metric_covariant, christoffels, f_vec and the electromagnetic tensor operation by operation as programs run in an arbitrary arithmetic; sqrt(sigma)**2 of base_metric.rho, 1/np.tan and np.linalg.inv are kept as such | FloatMetric.v, FloatMetric2-5.v: filter-based tracking of every operation; the cotangent near the pole of the tangent, the inverse by C124 (or by its error bound); FloatMetric6.v: explicit constants; FloatMetric8.v: IEEE formats |
| C116 | RK4naive on the numeric metric classes in floating point (proved, 3 theorems) | rk4_stepsF (FloatRKG.v): RK4naive in an arbitrary arithmetic calling an arbitrary function; the f_vec of FloatMetricModel.v | FloatRKG.v: rounding and stability for a callable that follows programs up to rounding; FloatMetric7.v: the exact f_vec as systems of programs with explicit matrix inverse; perturbed discrete Gronwall |
| C117 | Kerr.f_vec and KerrNewman.f_vec (with charge) define exactly one motion from every start, and RK4naive converges to it (proved, 6 theorems) | kerr_f_vec, kn_f_vec (MetricModel.v) with every charge; RK4naive (RKModel.v) | FloatMetric7.v: f_vec as a system of programs wherever it is defined; Picard iteration and order-4 convergence of C106/C107 |
| C118 | The 4-velocity in floating point (proved, 3 theorems) | four_velA, v0A (FloatVel.v): position() and velocity(metric) of coordinates/differential.py with utils.v0, in an arbitrary arithmetic | FloatVel.v: rounding tracked through the discriminant, square root and quotient; the discriminant is positive because the 3-velocity is subluminal |
| C119 | From coordinates to trajectory in floating point (proved, 3 theorems) | flowA (FloatFlow.v): four_velA followed by rk4_stepsF on the f_vec of FloatMetricModel.v | FloatFlow.v: C118 composed with C116; existence of the motion by Picard iteration (C107, C117) |
| C120 | Constants of motion along the trajectories of the numeric metric classes in floating point (proved, 3 theorems) | flowA; the quantities norm, energy and axial angular momentum computed from the metric at the computed position | FloatInv.v: a program quantity is uniformly Lipschitz near the motion (real induction); constant along the exact motion (C39, C95); composed with C119 |
| C121 | From Cartesian coordinates to trajectory in floating point (proved, 3 theorems) | conversion of Cartesian SI coordinates, 4-velocity and RK4naive in floating point (FloatCart.v: cart_flowA) | FloatCart.v: C113 composed with C119 |
| C122 | Geodesic with Cartesian output in floating point (proved, 4 theorems) | Geodesic with return_cartesian=True in floating point (FloatModel.v: to_cartesianA) | FloatOut.v, FloatOut2.v: the conversion is within C d of the exact one, uniformly on bounded sets; FloatOut3.v: composed with C109 along the compact motion |
| C123 | From Cartesian coordinates to a Cartesian trajectory in floating point (proved, 3 theorems) | conversion in, RK4naive, conversion out in floating point (FloatOut4.v: cart_outA) | FloatOut4.v: C121 for each of the three starts 2 pi apart, the uniform back-conversion of FloatOut2.v, the chain rule of CoordProofs2.v and CoordProofs4.v |
| C124 | The matrix inverse in floating point (proved, 4 theorems) | FloatLU.v: LAPACK gesv (idamax, row exchange, scaling by the reciprocal of the pivot, elimination, back substitution) in an arbitrary arithmetic, for n equations and q right-hand sides; numpy.linalg.inv is gesv with the identity | FloatLU2.v: each stage is within C u of the exact one for bounded data; FloatLU3.v: elimination preserves the solutions, a nonsingular system has a pivot, the pivot picked in floating point is nonzero in exact arithmetic; FloatLU4.v: induction on the size; FloatLU5.v: the 4 x 4 inverse and the exact run |
| C125 | Chains of coordinate conversions are path independent (proved, 7 theorems) | conversion methods of the coordinate and differential classes (ConvModel), chains as lists of target systems | each hop depends on the event only (`hop_ok`, `hopv_ok`); induction on the chain (ConvPath) |
| C126 | Carter's constant and the angular momentum vector of the metric classes (proved, 6 theorems) | Carter's quantity and the Cartesian components of angular momentum computed from the metric at the (computed) position; flowA | MetricCarter.v: the SI motion is a Hamiltonian motion of the unit-mass hole (C106), whose Carter constant and angular momentum vector are conserved (C112); FloatConst.v: program quantities kept as in C120 |
| C127 | Orbits behind a potential barrier exist for every parameter value and are what the integrators compute (proved, 12 theorems) | the trajectories of C110/C112/C119 and the f_vec motions of C106, with no new model function; radial potential written out | Contin.v: continuation of solutions of program systems that stay in a box (local existence by Picard iteration, compactness of boxes, gluing); GlobalHole*.v: a-priori bounds from the four constants of motion (Delta^2 p_r^2 = radial potential, Carter's constant keeps theta off the axis, r grows at most linearly); GlobalMotion.v, GlobalOrbit.v: named metrics, SI classes, convergence of the computed rows |
| C128 | Chains of coordinate conversions in floating point (proved, 7 theorems) | hopB, hopP, walkB, walkP, alphaB (FloatPath.v): the conversion formulas of FloatCoordModel composed along the chain, BaseMetric.alpha; SI values (the products with a unit scale of 1 are exact) | composition lemma `chain`: the second program starts within K' u of the first one's exact result turned by -1, 0 or 1 full turns; the exact object of the chain depends on the event only (ConvPath); induction on the chain |
| C129 | Symbolic constants keep their identity and description (partial, 11 theorems) | SymbolicConstant.__new__ and descriptive_name, get_constant, module import (SymConst.v); sympy's cached Symbol.__new__ as a finite map from name and assumptions to objects that may lose entries at any time | invariant: a cache entry points to an object of its key; induction on the history. The last clause is false of the code: refutation, and the true rule (last construction that returned the object) |
| C130 | Which bodies are captured, escape, fly by or stay bound, and that the integrators compute it (proved, 30 theorems) | the models of C127 (Geodesic, f_vec, velocity, RK4naive); nothing new | orbits exist to any T or to their first arrival at r1 (continuation in a box, Leave.v); (Delta p_r)^2 equals the radial potential, so the sign of p_r is kept where that is positive; bounds below on the speed give arrival and escape; at a simple root the second derivative of r is positive and the time to reach it finite (comparison with a square root); rows by the convergence theorems of C87, C109-C121 |
| C131 | The fractal figure and its slider (proved, 6 theorems) | `fractal` whole: linspace of the angles, one heatmap per angle, visible flag, slider; plotly restyle of `visible` as documented; all histories of slider moves | invariant over the history of moves; index reasoning on lists; images by C74's model of `_fractal_img`  |
| C132 | One orbit for all parameter values, and its fate (proved, 26 theorems) | the models of C127 and C130; nothing new | solutions on every [0, T] and uniqueness are glued into one on [0, oo) (unique description of the value at t, locality of solutions); the fates of C127/C130 carried over; rows by the convergence theorems; the accuracy statement chooses the step from K and r, then the number of bits from the step |

## 5. Findings

Disagreements between the intended property and the code, each proved (`_refuted`) on the model:

* **C02** FINDING: at 0/0 DualNumber.__truediv__ returns the correct limit as value (proved) but sets the derivative to 0, which is wrong in general (witness x^2/x at 0: derivative 1). The derivative half of the property is refuted for the code.
* **C07** FINDING: _P uses only g00, g03 and the diagonal; for a user metric with other off-diagonal entries the returned momentum is off shell by exactly the ignored cross terms (proved), so the property as stated is refuted with a witness.
* **C13** FINDING: _ord_6 and _ord_8 call _ord_4/_ord_6 whose inner weights use _Z(self.order), so the third-order error does not cancel; refuted for both orders. On the explicit inverse metric diag(-1, x, 1, 1) a step of order 6 or 8 is proved not to be third-order accurate (C13_local_order_3_refuted), so both are exactly second order there. Correct nesting is proved to cancel.
* **C14** History, counter, warning condition and suppression proved for every number of steps; with warnings turned into errors the history invariant fails (finding, refuted): step_num and the state advance but results does not.
* **C15** All clauses proved for steps >= 1; for steps = 0 the code raises IndexError instead of returning an empty trajectory (finding).
* **C17** FINDING: RK4naive computes direction = 1*(t_bound >= t0) - 1*(not t_bound < t0), which is 0 for every input, so the stop test never fires: refuted; what the code does instead (never refuses a step, passes any bound) is proved.
* **C24** FINDING: cartesian_to_bl computes v_phi through y/x, so it is not finite on the whole plane x = 0 although v_phi exists there; refuted, and availability is characterised exactly (x <> 0).
* **C28** FINDING: schwarzschild_radius and alpha read M.value, not M.si.value, so 1 tonne and 1000 kg give different radii: refuted; proved right exactly when the unit is SI (or the value is 0).
* **C35** FINDING: Kerr's tabulated d g_33/d r has the wrong sign of its spin term; every other entry is proved to be the derivative and the error of [1,3,3] is given in closed form.
* **C37** FINDING: KerrNewman.metric_covariant never uses Q (delta is called without it): refuted; the array is proved to be the uncharged Kerr metric, wrong for every Q<>0 and finite at the reported horizons.
* **C40** Norm conservation proved for Schwarzschild and for Kerr-Newman with q=0; FINDING: refuted for the Kerr class because of the wrong derivative entry of C35; exact drift proved.
* **C41** Antisymmetry (covariant and contravariant) and the electric components proved; FINDING: F_13 and F_23 have the opposite sign of the exterior derivative, refuted whenever spin and charge are non-zero, true otherwise.
* **C42** FINDING: f_vec computes (F_contra @ v) @ g instead of F_contra @ (g @ v), so the electromagnetic term does work on the norm: refuted; exact drift proved and the textbook contraction proved to preserve the norm.
* **C53** FINDING: tensor_product tests `(i or j) is None`, so i=0 with j omitted silently returns the outer product (refuted); any other missing index raises TypeError (proved).
* **C55** FINDING: lorentz_transform acts on lower indices with the matrix itself (transposed), not with its inverse; contraction is invariant exactly when the matrix is an involution (proved for every dimension), refuted for the boost of velocity 3/5.
* **C56** Proved for every history of calls on metrics created as ll or uu: inverse, cached object, values, lower_config. Findings: for an object produced by change_config whose source already has a cached inverse, inv().inv() is an equal but different object (refuted); for a metric created as ul, lower_config can return an object labelled ul (refuted).
* **C58** FINDING: subs rebuilds Tensor(...) with the default config 'll': rank 2 loses its configuration, other ranks raise ValueError.
* **C59** FINDING: TransformationMatrix.inv() is 1/self entrywise, not the matrix inverse; refuted, and proved never to be the inverse for 2x2 or symmetric matrices without zero entries.
* **C63** FINDING: DeSitter uses t = coords[1] (the x coordinate) in the scale factor; its Ricci tensor is computed exactly and is no multiple of g (refuted); the documented line element is proved to satisfy Ricci = 3/alpha^2 g.
* **C64** FINDING: JanisNewmanWinicour lacks 1/c^2 in its angular part, so gamma=1 is Schwarzschild (up to signature) exactly when c^2=1 (refuted otherwise). All other specialisations proved.
* **C65** FINDING: the bubble radius uses y and z instead of y^2 and z^2; proved equal to the Euclidean distance exactly where y+z = y^2+z^2, refuted in general.
* **C69** FINDING: for masses with 6*M.value <= 0.0001 the only sample is r_init, beyond 9M (C69_small_mass_refuted). A negative alpha never returns. The 1-D Z of get_values_surface (Z.reshape result is dropped) is what C69_surface describes.
* **C70** FINDING: the coded slope squared is R(r) times the isometric slope squared, so the embedding is isometric only where R = 1 (C70_isometric_refuted).
* **C72** FINDING: the drawn ergosphere uses a instead of a**2, so it cuts inside the horizon wherever cos^2 theta > a (C72_2D_refuted), and in 3D uses the azimuth for the polar angle (C72_3D_refuted).
* **C82** FINDING: Ricci_theta_theta = 1-c^2 because the angular part lacks 1/c^2; the property holds exactly when c^2=1.
* **C84** FINDING: the root equation truncates the mass with int(), so the radius is the turning point exactly when the mass is a whole number of kg (C84_turning_iff, C84_turning_refuted).
* **C85** FINDING: plot2D draws the black hole before validating the indices, so a rejected call still changes the figure (C85_failed_plot2D_refuted).
* **C86** FINDING: frames are numbered 0..N-1 and frame k shows k points, so the last trajectory point is never drawn (C86_last_point_refuted).
* **C90** FINDING: StressEnergyMomentumTensor.change_config returns an EinsteinTensor (C90_stress_energy_refuted); proved for every other class and every history.
* **C94** FINDING: the file calls besselj(rho, 0) and besselj(rho, 1), i.e. with order and argument swapped (sympy's signature is besselj(nu, z)); the published metric with J_0(rho), J_1(rho) is proved Ricci-flat, the Ricci tensor of the coded one is computed and proved nonzero somewhere for every C <> 0.
* **C95** FINDING: for Kerr the angular momentum is not conserved because of the wrong entry of C35 (exact rate of change proved); its energy, and both constants for Schwarzschild and KerrNewman, are proved conserved.
* **C101** FINDING: the metric arrays agree, but the accelerations differ by an explicit non-zero amount wherever the wrong [1,3,3] entry of Kerr's derivative array (C35) is wrong; they agree at a point for all velocities exactly where that error vanishes (e.g. without spin, on the axis).
* **C102** FINDING: from_new2old (symbolic/helpers.py:154-156) takes the entrywise reciprocal of the Jacobian instead of its matrix inverse. With two or more coordinates and no vanishing partial derivative the result is never the inverse Jacobian (the product has n on the diagonal); vanishing derivatives give zoo. It is right only in one dimension. from_old2new always raises NotImplementedError.
* **C105** FINDING: Kerr.f_vec (wrong [1,3,3] entry of its derivative array, C35) does not follow the curves computed by Geodesic(metric='Kerr') unless kerr_err times the azimuthal velocity vanishes (proved iff; refuted on the circular orbit at r = 9, a = 3/5). Schwarzschild and KerrNewman are proved to agree.
* **C108** FINDING: agreement holds for Schwarzschild, for every Kerr metric entry and for uncharged KerrNewman; the numeric Kerr Christoffel symbols differ from the symbolic ones (three independent entries) wherever kerr_err <> 0 (same defect as C35), and the numeric KerrNewman class ignores the charge that the symbolic metric and Geodesic's metric contain (C37). Exact differences are proved.
* **C114** FINDING: refuted. On the rotation axis z / r can round to 1 + 2^-52, and np.arccos of it is nan: proved for x = y = 0, z = 0.2, alpha = 0.9 in binary64. In exact arithmetic the conversion is defined on the whole axis but the origin (proved). Clipping z / r to [-1, 1] would repair it. Off the axis C113 applies.
* **C129** FINDING: the last clause is false. Symbol.__new__ returns the object sympy's cache holds for the name and assumptions, and SymbolicConstant.__new__ then sets _descriptive_name on it: SymbolicConstant('c') returns the module's c and erases its description (proved: C129_description_refuted, C129_overwrites). Everything else is proved for every history; descriptions are kept as long as no constant of the same name is constructed (C129_descriptions_kept). That sympy's cache behaves so is trusted (sympy is not in /repo).
