{"id": "C01", "title": "Forward-mode AD is exact", "statement": "Running any arithmetic program (+,-,*,/,unary -, integer powers, sin, cos, tan, exp, log, mixing floats and DualNumbers) on a DualNumber seeded with derivative 1 returns the program's value and its exact derivative wherever the program is defined (no zero denominators, no non-positive log arguments).", "quantifier": "every expression tree of the operations, every base point, every seeded variable", "why_tests_cant": "A test samples finitely many points of a continuum; the claim is about every one. The set of programs is infinite too.", "anchors": ["src/einsteinpy/utils/dual.py:DualNumber", "src/einsteinpy/utils/dual.py:_deriv"]}
{"id": "C02", "title": "AD at removable 0/0 points", "statement": "When DualNumber division meets 0/0 it returns the quotient's limit together with the quotient's derivative.", "quantifier": "every pair of differentiable functions vanishing together", "why_tests_cant": "A test samples finitely many points of a continuum; the claim is about every one.", "anchors": ["src/einsteinpy/utils/dual.py:DualNumber.__truediv__"]}
{"id": "C03", "title": "DualNumber arithmetic laws", "statement": "DualNumber + and * are commutative and associative, * distributes, - and unary - are consistent, and mixing with a plain float on either side gives exactly the result of lifting the float to DualNumber(x, 0); == and != compare value and derivative.", "quantifier": "all dual numbers and floats (over exact reals)", "why_tests_cant": "A test samples finitely many points of a continuum; the claim is about every one.", "anchors": ["src/einsteinpy/utils/dual.py:DualNumber"]}
{"id": "C04", "title": "Metric Jacobian", "statement": "_jacobian_g returns a symmetric matrix whose (i,j) entry is the partial derivative of the metric component with respect to the requested coordinate; bad wrt or index arity raises ValueError.", "quantifier": "every metric expressible with the supported operations, every point where it is defined, every wrt", "why_tests_cant": "A test samples finitely many points of a continuum; the claim is about every one.", "anchors": ["src/einsteinpy/utils/dual.py:_diff_g", "src/einsteinpy/utils/dual.py:_jacobian_g"]}
{"id": "C05", "title": "Built-in contravariant metrics are right", "statement": "The geodesic module's Schwarzschild, Kerr and Kerr-Newman functions return the matrix inverse of the textbook covariant line elements (signature -+++), Kerr-Newman with Q=0 is Kerr and Kerr with a=0 is Schwarzschild.", "quantifier": "all spins, charges, radii and angles off the horizon, ring and axis", "why_tests_cant": "A test samples finitely many points of a continuum; the claim is about every one.", "anchors": ["src/einsteinpy/geodesic/utils.py:_sch", "src/einsteinpy/geodesic/utils.py:_kerr", "src/einsteinpy/geodesic/utils.py:_kerrnewman"]}
{"id": "C06", "title": "Initial 4-momentum is on shell", "statement": "Geodesic's initial momentum satisfies g(p,p) = -1 (time-like) or 0 (null-like), keeps the user's three spatial components, and is future directed, whenever the discriminant is non-negative.", "quantifier": "all supported metrics, positions, spatial momenta", "why_tests_cant": "A test samples finitely many points of a continuum; the claim is about every one.", "anchors": ["src/einsteinpy/geodesic/utils.py:_P", "src/einsteinpy/geodesic/geodesic.py:Geodesic"]}
{"id": "C07", "title": "Initial 4-momentum for user-supplied metrics", "statement": "The same on-shell property for any user-supplied metric callable.", "quantifier": "all symmetric contravariant metrics", "why_tests_cant": "A test samples finitely many points of a continuum; the claim is about every one.", "anchors": ["src/einsteinpy/geodesic/utils.py:_P"]}
{"id": "C08", "title": "Mixed flow is the exact coupling rotation", "statement": "The coupling flow preserves the mean of the two copies, preserves |dq|^2+|dp|^2, composes additively in the step and is inverted by the negative step.", "quantifier": "all phase-space points, all steps and couplings", "why_tests_cant": "A test samples finitely many points of a continuum; the claim is about every one.", "anchors": ["src/einsteinpy/integrators/utils.py:_flow_mixed"]}
{"id": "C09", "title": "Half flows are exact Hamiltonian flows", "statement": "_flow_A and _flow_B are the exact time-delta flows of H_A = 1/2 g(q1)p2p2 and H_B = 1/2 g(q2)p1p1: the changed variables obey Hamilton's equations with the metric's true derivatives and the half Hamiltonian is conserved.", "quantifier": "all AD-supported symmetric metrics, all phase-space points where defined, all deltas", "why_tests_cant": "A test samples finitely many points of a continuum; the claim is about every one.", "anchors": ["src/einsteinpy/integrators/utils.py:_flow_A", "src/einsteinpy/integrators/utils.py:_flow_B", "src/einsteinpy/integrators/utils.py:_PartHamFlow"]}
{"id": "C10", "title": "Integrator is time reversible", "statement": "For every order, a step of size delta followed by a step of size -delta returns exactly to the start (exact arithmetic).", "quantifier": "all metrics, states, deltas, couplings and orders 2,4,6,8", "why_tests_cant": "A test samples finitely many points of a continuum; the claim is about every one.", "anchors": ["src/einsteinpy/integrators/fantasy.py:GeodesicIntegrator._ord_2", "src/einsteinpy/integrators/fantasy.py:GeodesicIntegrator._ord_4"]}
{"id": "C11", "title": "Conserved momenta of cyclic coordinates", "statement": "If the metric does not depend on a coordinate, the total (both copies) conjugate momentum of that coordinate is unchanged after any number of steps of any order; for the built-in metrics this covers energy and axial angular momentum.", "quantifier": "all metrics with a cyclic coordinate, any number of steps, all orders", "why_tests_cant": "A test samples finitely many points of a continuum; the claim is about every one. Also unbounded step counts.", "anchors": ["src/einsteinpy/integrators/fantasy.py:GeodesicIntegrator.step"]}
{"id": "C12", "title": "Yoshida coefficients", "statement": "The triple-jump coefficients sum to one and satisfy the odd-power cancellation condition of the requested order, so order=4 cancels the cubic error term.", "quantifier": "all even orders >= 4", "why_tests_cant": "A test samples finitely many points of a continuum; the claim is about every one.", "anchors": ["src/einsteinpy/integrators/utils.py:_Z", "src/einsteinpy/integrators/fantasy.py:GeodesicIntegrator._ord_4"]}
{"id": "C13", "title": "Orders 6 and 8 satisfy the order-4 condition", "statement": "The substep weights actually used by order=6 and order=8 satisfy the cubic cancellation that any order>=4 composition needs.", "quantifier": "the composed schemes", "why_tests_cant": "A test samples finitely many points of a continuum; the claim is about every one.", "anchors": ["src/einsteinpy/integrators/fantasy.py:GeodesicIntegrator._ord_6", "src/einsteinpy/integrators/fantasy.py:GeodesicIntegrator._ord_8"]}
{"id": "C14", "title": "Integrator history bookkeeping", "statement": "After any number of step() calls, step_num equals the number of calls, results holds exactly the successive states in order, nothing already recorded changes, and suppress_warnings only affects warnings; a warning is issued exactly at steps whose g(p,p) misses its target by more than atol + rtol*|target|.", "quantifier": "every call history", "why_tests_cant": "Unbounded histories.", "anchors": ["src/einsteinpy/integrators/fantasy.py:GeodesicIntegrator.step", "src/einsteinpy/integrators/fantasy.py:GeodesicIntegrator.__init__"]}
{"id": "C15", "title": "Geodesic construction contract", "statement": "An unknown metric name or order raises NotImplementedError; otherwise trajectory has exactly `steps` rows, the i-th row being the state after i+1 integrator steps, Cartesian output is the spherical-to-Cartesian image of the positions with momenta untouched, and the two coordinate modes agree.", "quantifier": "all constructor arguments", "why_tests_cant": "Unbounded step counts and inputs.", "anchors": ["src/einsteinpy/geodesic/geodesic.py:Geodesic.calculate_trajectory", "src/einsteinpy/geodesic/geodesic.py:Geodesic.__init__"]}
{"id": "C16", "title": "RK4naive update is classical RK4", "statement": "Each accepted step advances t by exactly stepsize; k steps give t0+k*h; quadrature of cubic polynomials is exact and y'=lam*y is multiplied by the degree-4 Taylor polynomial of exp.", "quantifier": "all right-hand sides, step sizes and step counts", "why_tests_cant": "A test samples finitely many points of a continuum; the claim is about every one.", "anchors": ["src/einsteinpy/integrators/runge_kutta.py:RK4naive.step"]}
{"id": "C17", "title": "RK4naive respects t_bound", "statement": "The integration won't continue beyond t_bound: once t has passed t_bound, step() leaves t and y unchanged.", "quantifier": "all start times, bounds, step sizes, histories", "why_tests_cant": "Unbounded histories.", "anchors": ["src/einsteinpy/integrators/runge_kutta.py:RK4naive.__init__", "src/einsteinpy/integrators/runge_kutta.py:RK4naive.step"]}
{"id": "C18", "title": "RK45 wrapper never raises on a finished solver", "statement": "step() on a failed or finished solver turns the solver's RuntimeError into a warning and leaves t and y unchanged; defaults rtol=0.2*h, atol=rtol/800 apply only when omitted.", "quantifier": "every history of step calls, every underlying solver behaviour", "why_tests_cant": "The solver's outcomes are unbounded.", "anchors": ["src/einsteinpy/integrators/runge_kutta.py:RK45"]}
{"id": "C19", "title": "Cartesian to spherical and back", "statement": "Converting Cartesian to spherical and back returns the same t,x,y,z for every point including the axis and origin; the spherical result has r>=0, 0<=theta<=pi, -pi<phi<=pi.", "quantifier": "every point of space", "why_tests_cant": "A test samples finitely many points of a continuum; the claim is about every one.", "anchors": ["src/einsteinpy/coordinates/utils.py:cartesian_to_spherical_novel", "src/einsteinpy/coordinates/utils.py:spherical_to_cartesian_novel"]}
{"id": "C20", "title": "Spherical to Cartesian and back", "statement": "Converting spherical to Cartesian and back is the identity on r>0, 0<theta<pi, -pi<phi<=pi.", "quantifier": "every point of the chart", "why_tests_cant": "A test samples finitely many points of a continuum; the claim is about every one.", "anchors": ["src/einsteinpy/coordinates/utils.py:spherical_to_cartesian_novel"]}
{"id": "C21", "title": "Cartesian/spherical velocities obey the chain rule", "statement": "The converted velocity components are the time derivatives of the converted position components along any differentiable path, in both directions (off the axis), so the round trip is the identity on velocities.", "quantifier": "every path through every point off the axis", "why_tests_cant": "A test samples finitely many points of a continuum; the claim is about every one.", "anchors": ["src/einsteinpy/coordinates/utils.py:cartesian_to_spherical", "src/einsteinpy/coordinates/utils.py:spherical_to_cartesian"]}
{"id": "C22", "title": "Cartesian/Boyer-Lindquist position round trip", "statement": "BL-to-Cartesian-to-BL is the identity on r>0, 0<theta<pi, -pi<phi<=pi, and Cartesian-to-BL-to-Cartesian is the identity wherever the BL radius is positive.", "quantifier": "every point, every spin", "why_tests_cant": "A test samples finitely many points of a continuum; the claim is about every one.", "anchors": ["src/einsteinpy/coordinates/utils.py:cartesian_to_bl_novel", "src/einsteinpy/coordinates/utils.py:bl_to_cartesian_novel"]}
{"id": "C23", "title": "Boyer-Lindquist velocities obey the chain rule", "statement": "The converted velocity components are the time derivatives of the converted positions along any differentiable path, both directions, where x is non-zero and the point is off the axis.", "quantifier": "every path, every spin", "why_tests_cant": "A test samples finitely many points of a continuum; the claim is about every one.", "anchors": ["src/einsteinpy/coordinates/utils.py:cartesian_to_bl", "src/einsteinpy/coordinates/utils.py:bl_to_cartesian"]}
{"id": "C24", "title": "BL azimuthal velocity is available wherever it is defined", "statement": "v_phi from cartesian_to_bl is finite at every point off the rotation axis.", "quantifier": "every point off the axis", "why_tests_cant": "A test samples finitely many points of a continuum; the claim is about every one.", "anchors": ["src/einsteinpy/coordinates/utils.py:cartesian_to_bl"]}
{"id": "C25", "title": "Zero spin makes BL spherical", "statement": "With alpha=0 the Boyer-Lindquist conversions (positions and velocities) agree with the spherical ones, in both directions, wherever the Boyer-Lindquist result is defined (positions: off the origin; velocities: x non-zero, see C24).", "quantifier": "every point", "why_tests_cant": "A test samples finitely many points of a continuum; the claim is about every one.", "anchors": ["src/einsteinpy/coordinates/utils.py"]}
{"id": "C26", "title": "Conversion objects dispatch", "statement": "Conversion classes return 7 components iff all three velocities were given and otherwise 4; BL conversions without both M and a raise KeyError; invalid spin raises ValueError; indirect conversions equal going through Cartesian.", "quantifier": "all argument combinations", "why_tests_cant": "Combinatorial and continuous input space.", "anchors": ["src/einsteinpy/coordinates/conversion.py"]}
{"id": "C27", "title": "Coordinates are independent of the units used", "statement": "A coordinate or differential object is built exactly from quantities of the documented dimensions (a plain number raises TypeError, another dimension UnitsError). Position, differential and velocity results do not depend on the units in which the user expressed the inputs: position() is (c t, x, y, z) in SI units, and a converted object holds the conversion of the SI values.", "quantifier": "all values, all positive unit scales", "why_tests_cant": "A test samples finitely many points of a continuum; the claim is about every one.", "anchors": ["src/einsteinpy/coordinates/core.py", "src/einsteinpy/coordinates/differential.py"]}
{"id": "C28", "title": "Metric parameters are independent of the units used", "statement": "Schwarzschild radius and other metric quantities do not depend on the (mass-equivalent) unit in which M was given.", "quantifier": "all masses, all unit scales", "why_tests_cant": "A test samples finitely many points of a continuum; the claim is about every one.", "anchors": ["src/einsteinpy/units.py:primitive", "src/einsteinpy/metric/base_metric.py:BaseMetric.schwarzschild_radius"]}
{"id": "C29", "title": "4-velocity normalisation", "statement": "velocity(metric) returns a 4-velocity with g(v,v)=c^2 that keeps the three given components whenever the discriminant is non-negative and g_00 non-zero, and its time component is positive outside the ergosphere for time-like data; a coordinate-system mismatch raises CoordinateError and leaves the object unchanged.", "quantifier": "all metrics (symmetric matrices) and velocities, all call histories", "why_tests_cant": "A test samples finitely many points of a continuum; the claim is about every one.", "anchors": ["src/einsteinpy/coordinates/utils.py:v0", "src/einsteinpy/coordinates/differential.py"]}
{"id": "C30", "title": "Coordinate subscripting", "statement": "obj[i] for -4<=i<4 and obj[name] address the same components in the documented order; anything else raises IndexError/KeyError.", "quantifier": "all integer and string keys", "why_tests_cant": "All integers and strings.", "anchors": ["src/einsteinpy/coordinates/core.py:Cartesian.__getitem__"]}
{"id": "C31", "title": "Lorentz factor", "statement": "lorentz_factor is >= 1 for sub-luminal velocities, equals 1 only at rest, and is rotation invariant.", "quantifier": "all sub-luminal velocities", "why_tests_cant": "A test samples finitely many points of a continuum; the claim is about every one.", "anchors": ["src/einsteinpy/coordinates/utils.py:lorentz_factor"]}
{"id": "C32", "title": "Spin validation and horizon helper functions", "statement": "alpha raises ValueError exactly outside 0<=a<=1; otherwise alpha = a*r_s/2; rho^2 = sigma; sigma and delta have their documented values and delta with Q=0 is the Kerr delta.", "quantifier": "all masses, spins, charges, positions", "why_tests_cant": "A test samples finitely many points of a continuum; the claim is about every one.", "anchors": ["src/einsteinpy/metric/base_metric.py:BaseMetric.alpha", "src/einsteinpy/metric/base_metric.py:BaseMetric.delta"]}
{"id": "C33", "title": "Reported singularities are the horizons and ergospheres", "statement": "For admissible parameters the reported horizons are the roots of delta, the ergosphere radii are the roots of g_00's numerator, and 0 <= inner ergosphere <= inner horizon <= outer horizon <= outer ergosphere at every angle; unsupported coordinates raise CoordinateError.", "quantifier": "all masses, spins, charges, angles", "why_tests_cant": "A test samples finitely many points of a continuum; the claim is about every one.", "anchors": ["src/einsteinpy/metric/base_metric.py:BaseMetric.singularities"]}
{"id": "C34", "title": "Schwarzschild connection", "statement": "Schwarzschild's tabulated Christoffel symbols are exactly the Levi-Civita connection of its metric_covariant at every point.", "quantifier": "every mass, every point off horizon, centre and axis", "why_tests_cant": "A test samples finitely many points of a continuum; the claim is about every one.", "anchors": ["src/einsteinpy/metric/schwarzschild.py:Schwarzschild._ch_sym_s"]}
{"id": "C35", "title": "Kerr metric derivatives", "statement": "Kerr's tabulated derivative array is the derivative of its covariant metric, component by component.", "quantifier": "every mass, spin and point", "why_tests_cant": "A test samples finitely many points of a continuum; the claim is about every one.", "anchors": ["src/einsteinpy/metric/kerr.py:Kerr._dg_dx_bl"]}
{"id": "C36", "title": "Kerr-Newman metric derivatives", "statement": "Kerr-Newman's tabulated derivative array is the derivative of its covariant metric, component by component.", "quantifier": "every mass, spin, charge and point", "why_tests_cant": "A test samples finitely many points of a continuum; the claim is about every one.", "anchors": ["src/einsteinpy/metric/kerrnewman.py:KerrNewman._dg_dx_bl"]}
{"id": "C37", "title": "Kerr-Newman metric depends on the charge", "statement": "The covariant Kerr-Newman metric is the textbook one with the charge term in delta, so its radial singularities are at the reported horizons.", "quantifier": "every mass, spin, charge and point", "why_tests_cant": "A test samples finitely many points of a continuum; the claim is about every one.", "anchors": ["src/einsteinpy/metric/kerrnewman.py:KerrNewman._g_cov_bl"]}
{"id": "C38", "title": "Sparse Christoffel evaluation is complete", "statement": "The sparse loops over the precomputed index list produce, for every index triple, the full sum 1/2 g^im(d_l g_mk + d_k g_ml - d_m g_kl), and the precomputed list is exactly the set computed by nonzero_christoffels.", "quantifier": "all metrics of the Kerr block form, all 64 index triples", "why_tests_cant": "A test samples finitely many points of a continuum; the claim is about every one.", "anchors": ["src/einsteinpy/metric/kerr.py:Kerr._ch_sym_bl", "src/einsteinpy/metric/kerrnewman.py:KerrNewman._ch_sym_bl", "src/einsteinpy/metric/kerr.py:Kerr.nonzero_christoffels"]}
{"id": "C39", "title": "Geodesic right-hand side", "statement": "f_vec returns the velocity followed by -Gamma^i_jk v^j v^k with the full double sum.", "quantifier": "all states", "why_tests_cant": "A test samples finitely many points of a continuum; the claim is about every one.", "anchors": ["src/einsteinpy/metric/schwarzschild.py:Schwarzschild._f_vec_s", "src/einsteinpy/metric/kerr.py:Kerr._f_vec_bl", "src/einsteinpy/metric/kerrnewman.py:KerrNewman._f_vec_bl"]}
{"id": "C40", "title": "Geodesic flow preserves the norm", "statement": "Along the flow of f_vec the norm g(v,v) has zero derivative (Schwarzschild, Kerr, uncharged Kerr-Newman).", "quantifier": "all states", "why_tests_cant": "A test samples finitely many points of a continuum; the claim is about every one.", "anchors": ["src/einsteinpy/metric/kerr.py:Kerr._f_vec", "src/einsteinpy/metric/schwarzschild.py:Schwarzschild._f_vec"]}
{"id": "C41", "title": "Electromagnetic tensor is the exterior derivative of the potential", "statement": "em_tensor_covariant is antisymmetric and equals d_i A_j - d_j A_i for em_potential_covariant; raising indices preserves antisymmetry.", "quantifier": "all masses, spins, charges, points", "why_tests_cant": "A test samples finitely many points of a continuum; the claim is about every one.", "anchors": ["src/einsteinpy/metric/kerrnewman.py:KerrNewman.em_tensor_covariant", "src/einsteinpy/metric/kerrnewman.py:KerrNewman.em_potential_covariant"]}
{"id": "C42", "title": "Lorentz force preserves the norm", "statement": "For a charged test particle the electromagnetic term added by f_vec does no work on the 4-velocity norm: g(v, force) = 0.", "quantifier": "all states, charges", "why_tests_cant": "A test samples finitely many points of a continuum; the claim is about every one.", "anchors": ["src/einsteinpy/metric/kerrnewman.py:KerrNewman._f_vec_bl"]}
{"id": "C43", "title": "Covariant and contravariant metrics are inverse", "statement": "metric_contravariant is the matrix inverse of metric_covariant, and metric_covariant is the user metric plus the perturbation when one is set.", "quantifier": "all user metrics and perturbations with invertible sum", "why_tests_cant": "A test samples finitely many points of a continuum; the claim is about every one.", "anchors": ["src/einsteinpy/metric/base_metric.py:BaseMetric.metric_contravariant"]}
{"id": "C44", "title": "Symbolic Christoffel symbols", "statement": "ChristoffelSymbols.from_metric computes 1/2 g^in(d_k g_nj + d_j g_nk - d_n g_jk) at every index, is symmetric in the lower indices, and is metric compatible (covariant derivative of g vanishes), for every metric in every dimension.", "quantifier": "every dimension, every symmetric invertible metric of smooth expressions", "why_tests_cant": "A test samples finitely many points of a continuum; the claim is about every one. Every dimension.", "anchors": ["src/einsteinpy/symbolic/christoffel.py:ChristoffelSymbols.from_metric"]}
{"id": "C45", "title": "Symbolic Riemann tensor", "statement": "RiemannCurvatureTensor.from_christoffels computes its documented formula at every index; with all indices lowered it is antisymmetric in each pair, pair symmetric and satisfies the first Bianchi identity.", "quantifier": "every dimension, every metric", "why_tests_cant": "A test samples finitely many points of a continuum; the claim is about every one. Every dimension.", "anchors": ["src/einsteinpy/symbolic/riemann.py:RiemannCurvatureTensor.from_christoffels"]}
{"id": "C46", "title": "Symbolic Ricci tensor and scalar", "statement": "RicciTensor is the (0,2) contraction of Riemann, symmetric; RicciScalar is its metric trace; all constructors (from metric, Christoffels, Riemann, Ricci) agree.", "quantifier": "every dimension, every metric", "why_tests_cant": "A test samples finitely many points of a continuum; the claim is about every one. Every dimension.", "anchors": ["src/einsteinpy/symbolic/ricci.py"]}
{"id": "C47", "title": "Einstein tensor is divergence free", "statement": "EinsteinTensor.from_metric is symmetric, has trace (1-n/2)R, and its covariant divergence vanishes identically (contracted second Bianchi identity).", "quantifier": "every dimension, every metric", "why_tests_cant": "A test samples finitely many points of a continuum; the claim is about every one. Every dimension.", "anchors": ["src/einsteinpy/symbolic/einstein.py:EinsteinTensor.from_metric"]}
{"id": "C48", "title": "Stress-energy tensor", "statement": "StressEnergyMomentumTensor.from_metric is c^4/(8 pi G) (G - Lambda g), symmetric, and covariantly conserved.", "quantifier": "every metric", "why_tests_cant": "A test samples finitely many points of a continuum; the claim is about every one.", "anchors": ["src/einsteinpy/symbolic/stress_energy_momentum.py"]}
{"id": "C49", "title": "Weyl tensor", "statement": "WeylTensor.from_metric has the Riemann symmetries, is totally trace free, is zero in 3 dimensions and raises ValueError below 3.", "quantifier": "every dimension, every metric", "why_tests_cant": "A test samples finitely many points of a continuum; the claim is about every one.", "anchors": ["src/einsteinpy/symbolic/weyl.py:WeylTensor.from_metric"]}
{"id": "C50", "title": "Schouten decomposition", "statement": "Riemann (lowered) = Weyl + Kulkarni-Nomizu of SchoutenTensor with g, and trace of Schouten is R/(2(n-1)).", "quantifier": "every dimension >= 4, every metric", "why_tests_cant": "A test samples finitely many points of a continuum; the claim is about every one.", "anchors": ["src/einsteinpy/symbolic/schouten.py:SchoutenTensor.from_metric", "src/einsteinpy/symbolic/weyl.py"]}
{"id": "C51", "title": "Index raising and lowering round trip", "statement": "change_config touches exactly the indices whose letter changes, contracting with the metric or its inverse; changing to any configuration and back returns the original tensor; a configuration of the wrong length or with other characters raises ValueError.", "quantifier": "every rank, every pair of configurations, every dimension, every invertible metric", "why_tests_cant": "Unbounded rank and all tensors.", "anchors": ["src/einsteinpy/symbolic/tensor.py:_change_config", "src/einsteinpy/symbolic/tensor.py:_difference_list"]}
{"id": "C52", "title": "Tensor product and contraction", "statement": "tensor_product without indices is the outer product with concatenated configuration; with i,j it contracts those slots, drops their letters, and raises ValueError exactly when both letters agree.", "quantifier": "all ranks, all index choices", "why_tests_cant": "Unbounded rank.", "anchors": ["src/einsteinpy/symbolic/tensor.py:tensor_product"]}
{"id": "C53", "title": "Index arguments of tensor_product are honoured", "statement": "Passing only one contraction index is rejected and passing i=None,j=None is the only way to get the outer product.", "quantifier": "all index choices", "why_tests_cant": "All index choices.", "anchors": ["src/einsteinpy/symbolic/tensor.py:tensor_product"]}
{"id": "C54", "title": "Lorentz transforms", "statement": "lorentz_transform transforms every index; a transform preserving a metric leaves that metric unchanged; the result keeps the configuration.", "quantifier": "every rank, every matrix", "why_tests_cant": "Unbounded rank, all matrices.", "anchors": ["src/einsteinpy/symbolic/tensor.py:BaseRelativityTensor.lorentz_transform"]}
{"id": "C55", "title": "Lorentz transforms preserve invariants", "statement": "Contracting an upper and a lower index commutes with lorentz_transform (scalars are invariant) for every Lorentz transformation.", "quantifier": "every Lorentz matrix, all vectors and covectors", "why_tests_cant": "A test samples finitely many points of a continuum; the claim is about every one.", "anchors": ["src/einsteinpy/symbolic/tensor.py:BaseRelativityTensor.lorentz_transform"]}
{"id": "C56", "title": "Metric inverse caching", "statement": "inv() is the matrix inverse with the opposite configuration, inv().inv() is the original object, repeated calls return the same object, and lower_config always yields the covariant form, for every sequence of calls; mixed configurations are refused by change_config.", "quantifier": "every call history, every invertible metric", "why_tests_cant": "Unbounded call histories.", "anchors": ["src/einsteinpy/symbolic/metric.py:MetricTensor"]}
{"id": "C57", "title": "Tensor construction checks", "statement": "A Tensor is accepted iff the configuration uses only u/l and its length equals the array's rank, with the documented exception types; then order = len(config) = rank.", "quantifier": "all strings and array shapes", "why_tests_cant": "All strings, all shapes.", "anchors": ["src/einsteinpy/symbolic/tensor.py:Tensor.__init__", "src/einsteinpy/symbolic/tensor.py:_config_checker"]}
{"id": "C58", "title": "Substitution keeps the tensor's configuration", "statement": "subs returns a tensor of the same rank and configuration.", "quantifier": "all tensors", "why_tests_cant": "All ranks/configurations.", "anchors": ["src/einsteinpy/symbolic/tensor.py:Tensor.subs"]}
{"id": "C59", "title": "Transformation matrix inverse", "statement": "TransformationMatrix.inv() is the inverse matrix.", "quantifier": "all invertible matrices", "why_tests_cant": "A test samples finitely many points of a continuum; the claim is about every one.", "anchors": ["src/einsteinpy/symbolic/helpers.py:TransformationMatrix.inv"]}
{"id": "C60", "title": "Array simplification is shape preserving and lossless", "statement": "Flattening a nested array enumerates every element once in row-major order, so simplify_sympy_array returns an array of the same shape whose entries denote the same values.", "quantifier": "arbitrary nesting depth and shapes", "why_tests_cant": "Unbounded depth.", "anchors": ["src/einsteinpy/symbolic/helpers.py:_flatten_list", "src/einsteinpy/symbolic/helpers.py:simplify_sympy_array"]}
{"id": "C61", "title": "Flat-space and constant-curvature predefined metrics", "statement": "Minkowski metrics have zero Riemann tensor, the static anti-de Sitter metric has Ricci = -3 g; at every point of the chart.", "quantifier": "every point, every value of c", "why_tests_cant": "A test samples finitely many points of a continuum; the claim is about every one.", "anchors": ["src/einsteinpy/symbolic/predefined/minkowski.py", "src/einsteinpy/symbolic/predefined/de_sitter.py"]}
{"id": "C62", "title": "Schwarzschild is a vacuum solution", "statement": "The predefined symbolic Schwarzschild metric has zero Ricci tensor everywhere in its chart.", "quantifier": "every mass, c and point", "why_tests_cant": "A test samples finitely many points of a continuum; the claim is about every one.", "anchors": ["src/einsteinpy/symbolic/predefined/vacuum_solutions.py:Schwarzschild"]}
{"id": "C63", "title": "De Sitter metric is de Sitter", "statement": "The predefined DeSitter metric is an Einstein metric: Ricci = 3/alpha^2 g.", "quantifier": "every point", "why_tests_cant": "A test samples finitely many points of a continuum; the claim is about every one.", "anchors": ["src/einsteinpy/symbolic/predefined/de_sitter.py:DeSitter"]}
{"id": "C64", "title": "Predefined solutions specialise correctly", "statement": "Kerr-Newman with Q=0 is Kerr, Kerr with a=0 is Schwarzschild, Reissner-Nordstrom with Q=0 is Schwarzschild, Kerr-Newman with a=0 is Reissner-Nordstrom, JanisNewmanWinicour with gamma=1 is Schwarzschild up to signature; all predefined metrics are symmetric.", "quantifier": "all parameters and points", "why_tests_cant": "A test samples finitely many points of a continuum; the claim is about every one.", "anchors": ["src/einsteinpy/symbolic/predefined"]}
{"id": "C65", "title": "Alcubierre shape function depends on Euclidean distance", "statement": "The warp-bubble radius is the Euclidean distance from the ship, and the shape function of it is (tanh(sigma(r+R)) - tanh(sigma(r-R)))/(2 tanh(sigma R)), which is 1 at the ship.", "quantifier": "all points", "why_tests_cant": "A test samples finitely many points of a continuum; the claim is about every one.", "anchors": ["src/einsteinpy/symbolic/predefined/alcubierre_warp.py"]}
{"id": "C66", "title": "find()", "statement": "find returns exactly the exposed names that contain the search string ignoring case and are not all lower case.", "quantifier": "all search strings", "why_tests_cant": "All strings.", "anchors": ["src/einsteinpy/symbolic/predefined/find.py"]}
{"id": "C67", "title": "Flat loop index decoding", "statement": "The flattened loops' index decoding int(t/d**k) % d with floating-point division visits every index tuple exactly once for every dimension that fits in memory.", "quantifier": "every dimension d with d**4 < 2**53", "why_tests_cant": "Float rounding over unboundedly many indices.", "anchors": ["src/einsteinpy/symbolic/christoffel.py:ChristoffelSymbols.from_metric", "src/einsteinpy/symbolic/riemann.py", "src/einsteinpy/symbolic/weyl.py"]}
{"id": "C68", "title": "Cosmological scale factor derivative", "statement": "scalar_factor_derivative is the time derivative of scalar_factor in each era and both raise ValueError for any other era.", "quantifier": "all t>0, all tuning parameters, all era strings", "why_tests_cant": "A test samples finitely many points of a continuum; the claim is about every one.", "anchors": ["src/einsteinpy/utils/scalar_factor.py"]}
{"id": "C69", "title": "Embedding sampling", "statement": "get_values terminates for every positive mass and alpha, returns two lists of equal length, samples only radii in (9M/4, 9M) starting at r_init, and get_values_surface's Z repeats the profile once per angle.", "quantifier": "all masses and alphas", "why_tests_cant": "Unbounded loop lengths.", "anchors": ["src/einsteinpy/hypersurface/schwarzschildembedding.py:SchwarzschildEmbedding.get_values"]}
{"id": "C70", "title": "Embedding is isometric", "statement": "The embedding's slope satisfies (dR/dr)^2 + (dZ/dr)^2 = (1-2M/r)^-2, i.e. the plotted surface carries the optical metric.", "quantifier": "all masses and radii > 9M/4", "why_tests_cant": "A test samples finitely many points of a continuum; the claim is about every one.", "anchors": ["src/einsteinpy/hypersurface/schwarzschildembedding.py:SchwarzschildEmbedding.gradient"]}
{"id": "C71", "title": "Shadow arrays stay aligned", "statement": "For every ray count and root-finder outcome, intensity, fb1 and fb2 have equal length, fb2 = -fb1, and each intensity entry belongs to its impact parameter.", "quantifier": "all ray counts, every root-finder and quadrature outcome", "why_tests_cant": "External solvers' outcomes are unbounded.", "anchors": ["src/einsteinpy/rays/shadow.py:Shadow"]}
{"id": "C72", "title": "Plotted ergosphere is the metric's ergosphere", "statement": "The ergosphere radius drawn for spin a at polar angle theta is 1+sqrt(1-a^2 cos^2 theta), between the horizon radius and 2.", "quantifier": "all spins and angles", "why_tests_cant": "A test samples finitely many points of a continuum; the claim is about every one.", "anchors": ["src/einsteinpy/plotting/geodesic/static.py:StaticGeodesicPlotter._draw_bh"]}
{"id": "C73", "title": "Plotter argument checks", "statement": "plot raises ValueError for unknown aspects and plot2D raises IndexError exactly when a coordinate index is outside 1..3; otherwise the plotted columns are those indices of the trajectory.", "quantifier": "all arguments", "why_tests_cant": "All integers/strings.", "anchors": ["src/einsteinpy/plotting/geodesic/static.py:StaticGeodesicPlotter.plot2D"]}
{"id": "C74", "title": "Fractal image", "statement": "Every pixel terminates within iter_max iterations and lies in [0,1], equals (k/iter_max)^0.2 for the first k whose orbit leaves the disc (or iter_max).", "quantifier": "all image sizes, parameters and windows", "why_tests_cant": "A test samples finitely many points of a continuum; the claim is about every one.", "anchors": ["src/einsteinpy/plotting/fractal.py:_julia"]}
{"id": "C75", "title": "primitive strips units in order", "statement": "primitive returns one entry per argument, in order: the stored value for quantities, the argument itself otherwise.", "quantifier": "all argument lists", "why_tests_cant": "Unbounded argument lists.", "anchors": ["src/einsteinpy/units.py:primitive"]}
{"id": "C76", "title": "Error messages keep all arguments", "statement": "BaseError/CoordinateError join the string forms of all arguments with single spaces and print ClassName : message.", "quantifier": "all argument lists", "why_tests_cant": "Unbounded.", "anchors": ["src/einsteinpy/utils/exceptions.py"]}
{"id": "C77", "title": "Body state", "statement": "A Body with coordinates exposes position and velocity triples in the coordinate system's order; without coordinates it exposes none.", "quantifier": "all bodies", "why_tests_cant": "All inputs.", "anchors": ["src/einsteinpy/bodies.py:Body"]}
{"id": "C78", "title": "Lambdified argument order", "statement": "tensor_lambdify with no arguments orders its arguments as axis symbols followed by the remaining free symbols, which are duplicate free, disjoint from the axes and sorted by name.", "quantifier": "all tensors", "why_tests_cant": "All symbol sets.", "anchors": ["src/einsteinpy/symbolic/tensor.py:BaseRelativityTensor.tensor_lambdify", "src/einsteinpy/symbolic/tensor.py:BaseRelativityTensor.__init__"]}
{"id": "C79", "title": "Kerr is a vacuum solution", "statement": "The predefined symbolic Kerr metric has zero Ricci tensor everywhere in its chart.", "quantifier": "every mass, spin, c and point", "why_tests_cant": "A test samples finitely many points of a continuum; the claim is about every one.", "anchors": ["src/einsteinpy/symbolic/predefined/vacuum_solutions.py:Kerr"]}
{"id": "C80", "title": "Charged predefined black holes are electrovacuum", "statement": "The Ricci tensor computed for ReissnerNordstorm and KerrNewman is traceless (Ricci scalar 0) with the mixed components of a Coulomb-type field of charge Q (eigenvalues +-c^2 r_Q^2/Sigma^2), everywhere in the chart.", "quantifier": "every mass, spin, charge, constants and point", "why_tests_cant": "A test samples finitely many points of a continuum; the claim is about every one.", "anchors": ["src/einsteinpy/symbolic/predefined/vacuum_solutions.py:KerrNewman", "src/einsteinpy/symbolic/predefined/vacuum_solutions.py:ReissnerNordstorm"]}
{"id": "C81", "title": "Other predefined metrics solve their field equations", "statement": "BertottiKasner has Ricci = lambda c^2 g; Godel has Ricci = 2 omega^2 u u (rotating dust with cosmological constant); Davidson is a radiation fluid; the C-metric with f cubic and h(y) = -f(-y) is vacuum; Ernst has zero Ricci scalar and paired mixed components; BarriolaVilenkin has only the solid-angle-deficit curvature 1-k^2; at every point of their charts.", "quantifier": "all parameters and points", "why_tests_cant": "A test samples finitely many points of a continuum; the claim is about every one.", "anchors": ["src/einsteinpy/symbolic/predefined"]}
{"id": "C82", "title": "JanisNewmanWinicour is a scalar-field solution", "statement": "The predefined JanisNewmanWinicour metric has only a radial Ricci component (static massless scalar source) for every value of c.", "quantifier": "all parameters and points", "why_tests_cant": "A test samples finitely many points of a continuum; the claim is about every one.", "anchors": ["src/einsteinpy/symbolic/predefined/janis_newman_winicour.py"]}
{"id": "C83", "title": "Shadow intensities are positive", "statement": "When the root finder returns turning points outside 3M, every computed intensity is a finite positive number (the one at exactly the critical impact parameter excepted).", "quantifier": "all masses, fields of view, ray counts and limits", "why_tests_cant": "A test samples finitely many points of a continuum; the claim is about every one.", "anchors": ["src/einsteinpy/rays/shadow.py:Shadow"]}
{"id": "C84", "title": "Shadow turning points", "statement": "The radius from which an outer ray's intensity is integrated is the turning point of the photon orbit with that impact parameter around the given mass.", "quantifier": "all masses and impact parameters", "why_tests_cant": "A test samples finitely many points of a continuum; the claim is about every one.", "anchors": ["src/einsteinpy/rays/shadow.py:Shadow"]}
{"id": "C85", "title": "Interactive figures accumulate", "statement": "After any sequence of calls the interactive figure holds exactly the traces of the calls made since the last clear, in order, and a call that raises leaves the figure as it was.", "quantifier": "all call histories", "why_tests_cant": "Histories are unbounded.", "anchors": ["src/einsteinpy/plotting/geodesic/interactive.py:InteractiveGeodesicPlotter", "src/einsteinpy/plotting/geodesic/static.py:StaticGeodesicPlotter"]}
{"id": "C86", "title": "Animation shows the whole trajectory", "statement": "animate's axis limits contain every point of the trajectory, frame k shows its first k points, and the last frame shows all of it.", "quantifier": "all trajectories", "why_tests_cant": "Unbounded trajectories.", "anchors": ["src/einsteinpy/plotting/geodesic/static.py:StaticGeodesicPlotter.animate"]}
{"id": "C87", "title": "Order of accuracy of the symplectic integrator", "statement": "For every metric program that is symmetric and every geodesic of it (a solution of Hamilton's equations of 1/2 g^ij p_i p_j around parameter 0, started where the metric is defined), one step of size delta of GeodesicIntegrator with order 2, 4, 6 or 8 started from the geodesic's initial data succeeds for all small delta and differs from the geodesic at parameter delta by at most M |delta|^3 in every component of both copies; with order 4 by at most M |delta|^5.", "quantifier": "all metric programs, all geodesics, all coupling constants omega, all sufficiently small step sizes of either sign", "why_tests_cant": "convergence order is a statement about a limit over step sizes for every metric; a test samples a few step sizes where round-off hides the order", "anchors": ["src/einsteinpy/integrators/fantasy.py:GeodesicIntegrator", "src/einsteinpy/integrators/utils.py:_Z", "src/einsteinpy/integrators/utils.py:_flow_A", "src/einsteinpy/integrators/utils.py:_flow_mixed"]}
{"id": "C88", "title": "The integrator step is a symplectic map", "statement": "For every metric program, every supported order, every step size and coupling constant, the step map on the doubled phase space (q1, p1, q2, p2) preserves the canonical area dq1^dp1 + dq2^dp2: for any two curves of initial data through a common point at which the step evaluates the metric only where it is defined, the image curves are differentiable there and the symplectic product of their velocities equals that of the original velocities.", "quantifier": "all metric programs, phase-space points, pairs of differentiable curves through them, step sizes, orders 2, 4, 6, 8", "why_tests_cant": "symplecticity is an identity between derivatives of the step map at every point in every pair of directions", "anchors": ["src/einsteinpy/integrators/fantasy.py:GeodesicIntegrator", "src/einsteinpy/integrators/utils.py:_flow_A", "src/einsteinpy/integrators/utils.py:_flow_B", "src/einsteinpy/integrators/utils.py:_flow_mixed"]}
{"id": "C89", "title": "Computed trajectories converge to the geodesic", "statement": "For every symmetric metric program and every geodesic of it that stays in the metric's domain over a parameter interval [0, T], calculate_trajectory with N steps of size T/N succeeds for all large N, and every row of the returned trajectory lies within C (T/N)^2 of the geodesic at its parameter (C (T/N)^4 with order 4), with C independent of N and of the row.", "quantifier": "all metric programs, geodesics, intervals, coupling constants, and all sufficiently large numbers of steps", "why_tests_cant": "global convergence is a limit over step counts, uniformly over unboundedly many rows; tests compare one run with one tolerance", "anchors": ["src/einsteinpy/geodesic/geodesic.py:Geodesic.calculate_trajectory", "src/einsteinpy/integrators/fantasy.py:GeodesicIntegrator"]}
{"id": "C90", "title": "Tensor objects through histories of operations", "statement": "After any successful sequence of change_config and lorentz_transform calls a tensor object has the class and dimension it started with, the configuration of the last change_config, the metric last used as its parent (none after a later Lorentz transformation) and its name extended by one tag per operation; change_config raises Exception exactly when neither an argument nor a parent supplies a metric, and succeeds with the default arguments on every object that has one.", "quantifier": "all classes, all call histories, all metrics and matrices", "why_tests_cant": "histories are unbounded and the claim ranges over every class", "anchors": ["src/einsteinpy/symbolic/stress_energy_momentum.py:StressEnergyMomentumTensor.change_config", "src/einsteinpy/symbolic/ricci.py:RicciTensor", "src/einsteinpy/symbolic/vector.py:GenericVector", "src/einsteinpy/symbolic/tensor.py:BaseRelativityTensor", "src/einsteinpy/symbolic/helpers.py:_change_name"]}
{"id": "C91", "title": "A Runge-Kutta step is accurate to fifth order in the step size", "statement": "For every system y' = f(t, y) whose right-hand side has Lipschitz first partial derivatives near a point and every solution through that point with a bounded fifth derivative, one step of RK4naive of size h (of either sign) started on the solution lands within M |h|^5 of it, with one M for all starting points nearby and all small h. For right-hand sides built from arithmetic and elementary functions no smoothness has to be assumed.", "quantifier": "all systems of any number of equations, solutions, starting times, step sizes and t_bound values", "why_tests_cant": "the order of accuracy is a limit statement over all step sizes and all right-hand sides", "anchors": ["src/einsteinpy/integrators/runge_kutta.py:RK4naive.__init__", "src/einsteinpy/integrators/runge_kutta.py:RK4naive.step"]}
{"id": "C92", "title": "Runge-Kutta integration converges with order four", "statement": "For every such system and every solution that exists over an interval of length T from t0 (T of either sign), N calls of RK4naive.step with h = T/N visit exactly the times t0 + k T/N, and every visited state is within C |T/N|^4 of the solution there, with C independent of N and k, for all large N.", "quantifier": "all systems, solutions, intervals, numbers of steps", "why_tests_cant": "global convergence is a limit over step counts; tests compare one run with one tolerance", "anchors": ["src/einsteinpy/integrators/runge_kutta.py:RK4naive.__init__", "src/einsteinpy/integrators/runge_kutta.py:RK4naive.step"]}
{"id": "C93", "title": "Computed trajectories stay on the mass shell", "statement": "1/2 g^ij p_i p_j is constant along every exact geodesic, and for every such geodesic over [0, T] each row of the trajectory computed with N steps of size T/N has it within C (T/N)^2 of the initial value (C (T/N)^4 with order 4), with C independent of N and of the row, for all large N: timelike trajectories stay timelike and null ones null up to the method's error.", "quantifier": "all metric programs, geodesics, intervals, coupling constants and all sufficiently large numbers of steps", "why_tests_cant": "a drift bound over unboundedly many rows and all step counts; tests check one orbit with one tolerance", "anchors": ["src/einsteinpy/geodesic/geodesic.py:Geodesic.calculate_trajectory", "src/einsteinpy/integrators/fantasy.py:GeodesicIntegrator.step"]}
{"id": "C94", "title": "BesselGravitationalWave is a vacuum solution", "statement": "The predefined BesselGravitationalWave metric (documented as Kramer's exact solution of Einstein's vacuum field equations) has zero Ricci tensor at every point of its chart, for every value of the constant C.", "quantifier": "every constant C and every point with rho > 0", "why_tests_cant": "A test samples finitely many points of a continuum; the claim is about every one.", "anchors": ["src/einsteinpy/symbolic/predefined/bessel_gravitational_wave.py:BesselGravitationalWave"]}
{"id": "C95", "title": "Energy and angular momentum are constants of motion", "statement": "Along every trajectory of the equations of motion returned by f_vec the covariant components g_tj v^j (energy) and g_phij v^j (axial angular momentum) of an uncharged test particle's velocity are constant, for Schwarzschild, Kerr and KerrNewman metric objects.", "quantifier": "every mass, spin, charge of the hole, trajectory and parameter interval", "why_tests_cant": "A test samples finitely many points of a continuum; the claim is about every one.", "anchors": ["src/einsteinpy/metric/schwarzschild.py:Schwarzschild.f_vec", "src/einsteinpy/metric/kerr.py:Kerr.f_vec", "src/einsteinpy/metric/kerrnewman.py:KerrNewman.f_vec"]}
{"id": "C96", "title": "Computed geodesics respect the symmetries of spacetime", "statement": "Around the built-in black holes, turning the initial azimuth by any angle turns the whole computed Geodesic (position, momentum, every trajectory row, spherical or Cartesian output) by that angle, and reflecting the initial data in the equatorial plane reflects it; a run raises exactly when the moved run does. The same holds for user metrics with those symmetries, shifting any coordinate the metric does not mention shifts every row, (t, phi) reversal maps trajectories of stationary axisymmetric circular metrics to each other, and for every metric reversing the momentum and the step traverses the same positions.", "quantifier": "all initial data, angles, spins, charges, numbers of steps, step sizes, orders and coupling constants, timelike and null", "why_tests_cant": "an equality of whole trajectories for every starting point and every angle", "anchors": ["src/einsteinpy/geodesic/geodesic.py:Geodesic", "src/einsteinpy/geodesic/geodesic.py:Geodesic.calculate_trajectory", "src/einsteinpy/integrators/fantasy.py:GeodesicIntegrator.step", "src/einsteinpy/geodesic/utils.py:_kerr", "src/einsteinpy/geodesic/utils.py:_kerrnewman", "src/einsteinpy/geodesic/utils.py:_sch"]}
{"id": "C97", "title": "Momenta of cyclic coordinates are kept along computed rows", "statement": "If the metric does not mention coordinate k (energy for k = t, axial angular momentum for k = phi), p_k is constant along every exact geodesic, and every row of the trajectory computed with N steps of size T/N has p_k within C (T/N)^2 of its initial value (C (T/N)^4 with order 4), with C independent of N and of the row, for all large N.", "quantifier": "all metric programs, cyclic coordinates, geodesics, intervals, coupling constants and all sufficiently large numbers of steps", "why_tests_cant": "a drift bound over unboundedly many rows and all step counts", "anchors": ["src/einsteinpy/geodesic/geodesic.py:Geodesic.calculate_trajectory", "src/einsteinpy/integrators/fantasy.py:GeodesicIntegrator.step"]}
{"id": "C98", "title": "Equatorial orbits stay equatorial, radial orbits stay radial", "statement": "A Geodesic around a built-in black hole whose initial position lies in the equatorial plane and whose initial polar momentum is zero has every row in the equatorial plane (theta = pi/2, or z = 0 in Cartesian output) with zero polar momentum; a Geodesic in Schwarzschild without initial angular momentum has every row on the same ray from the centre. In particular the 5500 rows of examples.precession() lie in the plane z = 0.", "quantifier": "all spins, charges, initial data in the plane or along the ray, orders, coupling constants, step sizes and numbers of steps, timelike and null", "why_tests_cant": "an invariant of every row of every run", "anchors": ["src/einsteinpy/geodesic/geodesic.py:Geodesic", "src/einsteinpy/geodesic/geodesic.py:Geodesic.calculate_trajectory", "src/einsteinpy/integrators/fantasy.py:GeodesicIntegrator.step", "src/einsteinpy/examples.py:precession"]}
{"id": "C99", "title": "Circular orbits and light rays of the built-in black holes", "statement": "Timelike (Nulllike) Geodesics released in the equatorial plane of a Schwarzschild, Kerr or Kerr-Newman hole with the azimuthal momentum of the circular orbit (photon orbit) at their radius exist for all large numbers of steps N, get the circular orbit's energy as p_t, and every row is within C (T/N)^2 (order 4: C (T/N)^4) of the exact circle, prograde or retrograde; Schwarzschild has such an orbit at every r > 3 with angular momentum r/sqrt(r-3), and the photon sphere at r = 3. Outgoing radial light in Schwarzschild follows r = r0 + lambda and t = lambda + 2 ln((r-2)/(r0-2)) with the same error bounds.", "quantifier": "all spins, charges, radii, parameter intervals, orders, coupling constants and all sufficiently large numbers of steps", "why_tests_cant": "a limit over step counts for a family of orbits with three real parameters", "anchors": ["src/einsteinpy/geodesic/geodesic.py:Geodesic.calculate_trajectory", "src/einsteinpy/geodesic/geodesic.py:Timelike", "src/einsteinpy/geodesic/geodesic.py:Nulllike", "src/einsteinpy/geodesic/utils.py:_P", "src/einsteinpy/geodesic/utils.py:_kerrnewman"]}
{"id": "C100", "title": "Without spin, Kerr and Kerr-Newman are Schwarzschild", "statement": "Kerr and KerrNewman metric objects with a = 0 and the mass of a Schwarzschild object have the same metric_covariant (and are undefined at the same points), the same christoffels (defined at the same points), the same f_vec on every position and velocity of an uncharged particle, and, without charge, the same singularities.", "quantifier": "every mass, position, velocity and values of the physical constants", "why_tests_cant": "A test samples finitely many points of a continuum; the claim is about every one.", "anchors": ["src/einsteinpy/metric/schwarzschild.py:Schwarzschild", "src/einsteinpy/metric/kerr.py:Kerr", "src/einsteinpy/metric/kerrnewman.py:KerrNewman", "src/einsteinpy/metric/base_metric.py:BaseMetric.singularities"]}
{"id": "C101", "title": "Kerr and Kerr-Newman agree on uncharged particles", "statement": "A Kerr object and a KerrNewman object of the same mass and spin have the same metric, and their f_vec gives the same motion to an uncharged test particle.", "quantifier": "every mass, spin, position and velocity", "why_tests_cant": "A test samples finitely many points of a continuum; the claim is about every one.", "anchors": ["src/einsteinpy/metric/kerr.py:Kerr.f_vec", "src/einsteinpy/metric/kerrnewman.py:KerrNewman.f_vec", "src/einsteinpy/metric/kerr.py:Kerr._dg_dx_bl"]}
{"id": "C102", "title": "TransformationMatrix.from_new2old is the inverse Jacobian", "statement": "TransformationMatrix.from_new2old(old_coords, new_coords, new2old) returns the matrix of partial derivatives of the new coordinates by the old ones, i.e. the inverse of the matrix of partial derivatives of new2old by new_coords; TransformationMatrix refuses arrays whose rank is not 2 with ValueError.", "quantifier": "every number of coordinates and every list of expressions new2old", "why_tests_cant": "A test samples finitely many points of a continuum; the claim is about every one.", "anchors": ["src/einsteinpy/symbolic/helpers.py:TransformationMatrix.from_new2old", "src/einsteinpy/symbolic/helpers.py:TransformationMatrix.__new__", "src/einsteinpy/symbolic/helpers.py:TransformationMatrix.from_old2new"]}
{"id": "C103", "title": "General covariance of the curvature classes", "statement": "If the metric of one MetricTensor is that of another one written in new coordinates (g'_ab = dX_i/dx'_a dX_j/dx'_b g_ij), then RiemannCurvatureTensor, RicciTensor, EinsteinTensor, SchoutenTensor and WeylTensor of the two metrics, in every index configuration reached by change_config, are related by the tensor transformation law, RicciScalar is the same function of the point, and ChristoffelSymbols obey the inhomogeneous law of a connection. MinkowskiPolar is MinkowskiCartesian in spherical coordinates.", "quantifier": "every dimension, symmetric invertible metric, change of coordinates with invertible Jacobian and index configuration", "why_tests_cant": "A test samples finitely many points of a continuum; the claim is about every one.", "anchors": ["src/einsteinpy/symbolic/riemann.py:RiemannCurvatureTensor.from_metric", "src/einsteinpy/symbolic/ricci.py:RicciTensor.from_metric", "src/einsteinpy/symbolic/ricci.py:RicciScalar.from_metric", "src/einsteinpy/symbolic/einstein.py:EinsteinTensor.from_metric", "src/einsteinpy/symbolic/schouten.py:SchoutenTensor.from_metric", "src/einsteinpy/symbolic/weyl.py:WeylTensor.from_metric", "src/einsteinpy/symbolic/christoffel.py:ChristoffelSymbols.from_metric", "src/einsteinpy/symbolic/predefined/minkowski.py:MinkowskiPolar"]}
{"id": "C104", "title": "Conformal invariance of the Weyl tensor", "statement": "If the metric of one MetricTensor is f times that of another (f an invertible expression), WeylTensor.from_metric of both agree after change_config('ulll'), and in any index configuration differ by the factor f divided by f for every raised index; SchoutenTensor changes by the second derivatives of log f. A constant f (a change of units) leaves ChristoffelSymbols, RiemannCurvatureTensor, RicciTensor and EinsteinTensor unchanged and divides RicciScalar by f.", "quantifier": "every dimension (at least 4 for Weyl, 3 for Schouten), symmetric invertible metric, conformal factor and index configuration", "why_tests_cant": "A test samples finitely many points of a continuum; the claim is about every one.", "anchors": ["src/einsteinpy/symbolic/weyl.py:WeylTensor.from_metric", "src/einsteinpy/symbolic/weyl.py:WeylTensor.change_config", "src/einsteinpy/symbolic/schouten.py:SchoutenTensor.from_metric", "src/einsteinpy/symbolic/ricci.py:RicciScalar.from_metric", "src/einsteinpy/symbolic/einstein.py:EinsteinTensor.from_metric"]}
{"id": "C105", "title": "Geodesic and the metric classes' f_vec describe the same motion", "statement": "A curve (q, p) obeys Hamilton's equations integrated by Geodesic (metric 'Schwarzschild' or 'Kerr', units G = c = M = 1) exactly when its position and velocity in SI units obey the equations of motion f_vec of the Schwarzschild, Kerr or (for an uncharged particle) KerrNewman object of that mass and spin; and for every motion obeying f_vec on [0, T] there are initial conditions for which the rows of Geodesic.calculate_trajectory with N steps of T/N, in SI units, are within C (T/N)^2 (order 4: C (T/N)^4) of it.", "quantifier": "every mass, spin, curve, parameter interval, order, coupling constant, values of the physical constants and all sufficiently large numbers of steps", "why_tests_cant": "an equivalence of differential equations along every curve and a limit over step counts", "anchors": ["src/einsteinpy/geodesic/geodesic.py:Geodesic.calculate_trajectory", "src/einsteinpy/metric/schwarzschild.py:Schwarzschild._f_vec_s", "src/einsteinpy/metric/kerrnewman.py:KerrNewman._f_vec_bl", "src/einsteinpy/metric/kerr.py:Kerr._f_vec_bl", "src/einsteinpy/integrators/fantasy.py:GeodesicIntegrator.step"]}
{"id": "C106", "title": "RK4naive on f_vec converges to the motion and agrees with Geodesic", "statement": "RK4naive started on the f_vec of a Schwarzschild or KerrNewman object (uncharged particle) with step T/N has after k steps parameter k T/N and a position and velocity within C (T/N)^4 of the motion obeying f_vec, forwards or backwards; and the positions in the rows of Geodesic.calculate_trajectory, in SI units, agree with RK4naive's within C (T/N)^2 (order 4: C (T/N)^4).", "quantifier": "every mass, spin, motion defined on the interval, interval length, order, coupling constant and all sufficiently large numbers of steps", "why_tests_cant": "a limit over step counts for a family of nonlinear differential equations", "anchors": ["src/einsteinpy/integrators/runge_kutta.py:RK4naive.step", "src/einsteinpy/metric/schwarzschild.py:Schwarzschild._f_vec_s", "src/einsteinpy/metric/kerrnewman.py:KerrNewman._f_vec_bl", "src/einsteinpy/geodesic/geodesic.py:Geodesic.calculate_trajectory"]}
{"id": "C107", "title": "The initial value problems solved have exactly one solution, and the solvers find it", "statement": "For every initial position where the metric evaluates without error and every initial momentum there is T > 0 such that exactly one geodesic starts there on [0, T], and for every U in (0, T] the rows of Geodesic.calculate_trajectory with N steps of U/N are within C (U/N)^2 (order 4: C (U/N)^4) of it. Likewise for every system y' = f(t, y) whose right-hand side is a program of arithmetic and elementary functions defined at (t0, y0): there is exactly one solution around t0 and RK4naive is within C (U/N)^4 of it. Wherever f_vec of a Schwarzschild or KerrNewman object (uncharged particle) returns a value, a motion obeying f_vec starts, and it is the only one.", "quantifier": "every symmetric metric program, every right-hand side program, every initial condition, order, coupling constant, and all sufficiently large numbers of steps", "why_tests_cant": "existence and uniqueness of solutions of differential equations for all initial data", "anchors": ["src/einsteinpy/geodesic/geodesic.py:Geodesic.calculate_trajectory", "src/einsteinpy/integrators/fantasy.py:GeodesicIntegrator.step", "src/einsteinpy/integrators/runge_kutta.py:RK4naive.step", "src/einsteinpy/metric/schwarzschild.py:Schwarzschild._f_vec_s", "src/einsteinpy/metric/kerrnewman.py:KerrNewman._f_vec_bl"]}
{"id": "C108", "title": "Symbolic, numeric and geodesic descriptions of the black holes agree", "statement": "Evaluated at the same values of the constants, mass, spin and coordinates, metric_covariant of the Schwarzschild, Kerr and KerrNewman classes is c^2 times the symbolic predefined metric of the same name, and their numeric Christoffel symbols are those ChristoffelSymbols.from_metric computes from the symbolic metric; the metric functions used by Geodesic are, in units G = c = M = 1, minus the inverse of the symbolic predefined metrics.", "quantifier": "every point where the symbolic metric is defined, every mass, spin, charge and value of the constants, every correct simplifier and matrix inverter", "why_tests_cant": "A test samples finitely many points of a continuum; the claim is about every one.", "anchors": ["src/einsteinpy/symbolic/predefined/vacuum_solutions.py:Schwarzschild", "src/einsteinpy/symbolic/predefined/vacuum_solutions.py:Kerr", "src/einsteinpy/symbolic/predefined/vacuum_solutions.py:KerrNewman", "src/einsteinpy/metric/schwarzschild.py:Schwarzschild", "src/einsteinpy/metric/kerr.py:Kerr", "src/einsteinpy/metric/kerrnewman.py:KerrNewman", "src/einsteinpy/geodesic/utils.py:_kerrnewman", "src/einsteinpy/symbolic/christoffel.py:ChristoffelSymbols.from_metric"]}
{"id": "C109", "title": "Rounding errors of Geodesic", "statement": "For each named black hole, starting point outside its horizon and initial momentum of a massive particle (or non-zero momentum of a photon) there are T, K and r such that Geodesic, computed in floating point of unit roundoff u with step h (h <= r, u/h <= r, total length at most T), raises no error and every row is within K (h^n + u/h) of the true motion (n = 2, or 4 for order 4), the initial 4-momentum within K u. For any metric callable, initial data and settings for which Geodesic succeeds in exact arithmetic, it succeeds in floating point of small enough u and every entry of the returned array is within C u of the exact one. Every IEEE format with correctly rounded operations and elementary functions accurate to 4 ulp is such an arithmetic, with u = 2^(4-p) for precision p.", "quantifier": "every metric callable, parameters, initial data, order, coupling constant, number of steps, step size and every arithmetic of sufficiently small unit roundoff", "why_tests_cant": "a statement about every rounding behaviour and about limits in the step size and the precision", "anchors": ["src/einsteinpy/geodesic/geodesic.py:Geodesic", "src/einsteinpy/geodesic/geodesic.py:Geodesic.calculate_trajectory", "src/einsteinpy/integrators/fantasy.py:GeodesicIntegrator.step", "src/einsteinpy/integrators/utils.py:_flow_mixed", "src/einsteinpy/geodesic/utils.py:_P", "src/einsteinpy/utils/dual.py:DualNumber"]}
{"id": "C110", "title": "Rounding errors of automatic differentiation and of the metrics", "statement": "Evaluating a program of arithmetic and elementary functions in floating point of unit roundoff u, at inputs within u of a point where it is defined, gives a value within C u of the exact one; run on DualNumbers it also gives a derivative within C u of the true partial derivative, with C and the admissible u depending only on the program and the point. Hence the metric callables, _jacobian_g (against the true partial derivatives of the metric) and _P (where the number under its square root is positive) are within C u of the exact values.", "quantifier": "every program, point of its domain, perturbation of the input and every arithmetic of sufficiently small unit roundoff", "why_tests_cant": "a statement about every rounding behaviour", "anchors": ["src/einsteinpy/utils/dual.py:DualNumber", "src/einsteinpy/utils/dual.py:_jacobian_g", "src/einsteinpy/geodesic/utils.py:_P", "src/einsteinpy/geodesic/utils.py:_kerrnewman", "src/einsteinpy/geodesic/utils.py:_kerr", "src/einsteinpy/geodesic/utils.py:_sch"]}
{"id": "C111", "title": "RK4naive in floating point: time and solution within K (e0 + |h|^4 + u/|h|), and within C u of the exact run", "statement": "Run on floats instead of real numbers, RK4naive still works: with an arithmetic of unit roundoff u (every IEEE format has u = 2^(4-p)), a right-hand side computed by an arithmetic program, and inputs t0, y0 known to within e0, all k steps of size h (forwards or backwards) succeed while h, e0 and u/|h| are small, and afterwards t differs from t0 + k h, and every component of y from the true solution at that time, by at most K (e0 + |h|^4 + u/|h|), K independent of h, the number of steps and the arithmetic. For a fixed run, the floats stay within C u of the exact run; on exact arithmetic they coincide; the array keeps its length.", "quantifier": "every system of n programs, every solution on an interval, every step size, number of steps, initial error and accurate arithmetic, every IEEE format and libm accurate to 4 ulp", "why_tests_cant": "A test samples finitely many points of a continuum; the claim is about every one.; a test runs one right-hand side in one precision", "anchors": ["src/einsteinpy/integrators/runge_kutta.py:RK4naive.__init__", "src/einsteinpy/integrators/runge_kutta.py:RK4naive.step"]}
{"id": "C112", "title": "Computed orbits keep the constants of motion of their black hole", "statement": "Around each built-in black hole (Schwarzschild, Kerr, Kerr-Newman) the rows returned by Geodesic, computed with step h in arithmetic with unit roundoff u, keep the energy -p_t, the axial angular momentum p_phi, the squared mass g^ij p_i p_j and Carter's constant p_theta^2 + (a sin(theta) p_t + p_phi/sin(theta))^2 - a^2 cos^2(theta) g^ij p_i p_j of the initial data up to K (h^n + u/h), n = 2 (4 for order 4). Without spin they keep the whole angular momentum vector and the orbit stays in the plane perpendicular to it, for any inclination. More generally any constant of the motion of any metric that a program computes from position and momentum is kept to that accuracy.", "quantifier": "All built-in black holes, parameters, exterior initial points, momenta of massive particles and light, orders, step sizes and step counts, and all arithmetics of bounded relative error.", "why_tests_cant": "A test samples finitely many points of a continuum; the claim is about every one.", "anchors": ["src/einsteinpy/geodesic/geodesic.py:Geodesic", "src/einsteinpy/geodesic/utils.py:_kerr", "src/einsteinpy/geodesic/utils.py:_kerrnewman", "src/einsteinpy/geodesic/utils.py:_sch", "src/einsteinpy/integrators/fantasy.py:GeodesicIntegrator"]}
{"id": "C113", "title": "The coordinate conversions in floating point", "statement": "Run on floats, the conversions between Cartesian, spherical and Boyer-Lindquist coordinates (positions and velocities) give every component within C u of the exact conversion, for every arithmetic of small enough unit roundoff u and inputs known to within K u, C depending only on K and the point; the azimuth is compared up to a full turn where the point lies on the cut of arctan2. Converting there and back in floating point gives the original position and velocity within C u. Every IEEE format with a libm accurate to 4 ulp is such an arithmetic.", "quantifier": "every point off the coordinate singularities, velocity, spin parameter, perturbation of the inputs and accurate arithmetic", "why_tests_cant": "a statement about every rounding behaviour at every point", "anchors": ["src/einsteinpy/coordinates/utils.py:cartesian_to_spherical", "src/einsteinpy/coordinates/utils.py:cartesian_to_bl", "src/einsteinpy/coordinates/utils.py:spherical_to_cartesian", "src/einsteinpy/coordinates/utils.py:bl_to_cartesian", "src/einsteinpy/coordinates/utils.py:cartesian_to_spherical_novel", "src/einsteinpy/coordinates/utils.py:cartesian_to_bl_novel", "src/einsteinpy/coordinates/utils.py:spherical_to_cartesian_novel", "src/einsteinpy/coordinates/utils.py:bl_to_cartesian_novel"]}
{"id": "C114", "title": "cartesian_to_bl gives numbers on the rotation axis", "statement": "cartesian_to_bl returns a number (not nan) for theta at every point x = y = 0, z <> 0 of the rotation axis, in binary64 arithmetic.", "quantifier": "every z and alpha", "why_tests_cant": "A test samples finitely many points of a continuum; the claim is about every one.", "anchors": ["src/einsteinpy/coordinates/utils.py:cartesian_to_bl", "src/einsteinpy/coordinates/utils.py:cartesian_to_bl_novel"]}
{"id": "C115", "title": "The numeric metric classes in floating point", "statement": "Run on floats, metric_covariant, metric_contravariant, christoffels and f_vec of Schwarzschild, Kerr and KerrNewman, and the electromagnetic tensor of KerrNewman, succeed wherever the same methods in exact arithmetic return a value, and every entry is within C u of the exact one, for every arithmetic of small enough unit roundoff u, numpy.linalg.inv being LAPACK's elimination in the same arithmetic (or any other inverse with the error bound of Gaussian elimination), and inputs known to within K u; C depends only on K, the object and the point. The equator, where the code divides by an infinite tangent, is included.", "quantifier": "every metric object, values of the constants, position, velocity, perturbation of the inputs, accurate arithmetic and inverse", "why_tests_cant": "a statement about every rounding behaviour at every point", "anchors": ["src/einsteinpy/metric/schwarzschild.py:Schwarzschild.metric_covariant", "src/einsteinpy/metric/schwarzschild.py:Schwarzschild._ch_sym_s", "src/einsteinpy/metric/schwarzschild.py:Schwarzschild._f_vec_s", "src/einsteinpy/metric/kerr.py:Kerr._g_cov_bl", "src/einsteinpy/metric/kerr.py:Kerr._ch_sym_bl", "src/einsteinpy/metric/kerr.py:Kerr._f_vec_bl", "src/einsteinpy/metric/kerrnewman.py:KerrNewman._g_cov_bl", "src/einsteinpy/metric/kerrnewman.py:KerrNewman._ch_sym_bl", "src/einsteinpy/metric/kerrnewman.py:KerrNewman._f_vec_bl", "src/einsteinpy/metric/kerrnewman.py:KerrNewman.em_tensor_covariant", "src/einsteinpy/metric/base_metric.py:BaseMetric.metric_contravariant"]}
{"id": "C116", "title": "RK4naive on the numeric metric classes in floating point", "statement": "RK4naive given the f_vec of a Schwarzschild, Kerr or KerrNewman object (charged particles included) and run on floats of unit roundoff u with step h follows the motion: if X, W is a motion on an interval, all steps inside the interval succeed and position, velocity and time are within C (e0 + |h|^4 + u/|h|) of those of the motion, e0 being the error of the initial data; C does not depend on the arithmetic, the step or the number of steps.", "quantifier": "every metric object, motion, interval, step size, number of steps, initial error, accurate arithmetic and inverse", "why_tests_cant": "a statement about every rounding behaviour and about limits in the step size and the precision", "anchors": ["src/einsteinpy/integrators/runge_kutta.py:RK4naive.__init__", "src/einsteinpy/integrators/runge_kutta.py:RK4naive.step", "src/einsteinpy/metric/schwarzschild.py:Schwarzschild._f_vec_s", "src/einsteinpy/metric/kerr.py:Kerr._f_vec_bl", "src/einsteinpy/metric/kerrnewman.py:KerrNewman._f_vec_bl"]}
{"id": "C117", "title": "Kerr.f_vec and KerrNewman.f_vec (with charge) define exactly one motion from every start, and RK4naive converges to it", "statement": "Wherever f_vec of a Kerr object, or of a KerrNewman object with any charges, returns a value, there is a motion with that initial position and velocity, on any interval there is at most one, and RK4naive with N steps differs from it by at most C/N^4.", "quantifier": "every metric object, initial position and velocity, interval and number of steps", "why_tests_cant": "existence and uniqueness of solutions of differential equations for all initial data", "anchors": ["src/einsteinpy/metric/kerr.py:Kerr._f_vec_bl", "src/einsteinpy/metric/kerrnewman.py:KerrNewman._f_vec_bl", "src/einsteinpy/integrators/runge_kutta.py:RK4naive.step"]}
{"id": "C118", "title": "The 4-velocity in floating point", "statement": "position() and velocity(metric) of coordinates in SI units, run on floats, give the position (c t, x1, x2, x3) and the 4-velocity within C u, whenever the metric exists there, g_tt > 0 and the spatial velocity is below the speed of light: the time component returned is within C u of the future-directed root that makes the norm of the 4-velocity c^2; u is the unit roundoff and the inputs are known to within K u.", "quantifier": "every metric object of the three classes, position, 3-velocity, perturbation of the inputs, accurate arithmetic", "why_tests_cant": "a statement about every rounding behaviour at every point", "anchors": ["src/einsteinpy/coordinates/differential.py:SphericalDifferential.velocity", "src/einsteinpy/coordinates/differential.py:BoyerLindquistDifferential.velocity", "src/einsteinpy/coordinates/differential.py:SphericalDifferential.position", "src/einsteinpy/coordinates/differential.py:BoyerLindquistDifferential.position", "src/einsteinpy/coordinates/utils.py:v0"]}
{"id": "C119", "title": "From coordinates to trajectory in floating point", "statement": "Starting from SI coordinates (position and 3-velocity known to within K u), computing the 4-velocity with velocity(metric) and then taking N steps of size h of RK4naive on the metric's f_vec, all in arithmetic of unit roundoff u, follows the motion of the metric that starts at that position with the future-directed 4-velocity of norm c^2: such a motion exists, and as long as N h stays inside its interval no step fails and every state is within C (h^4 + u/h) of it.", "quantifier": "every Schwarzschild, Kerr and KerrNewman object (charged particles included), position outside the coordinate singularities with g_tt > 0, subluminal 3-velocity, step size, number of steps, perturbation of the inputs, accurate arithmetic and inverse", "why_tests_cant": "a statement about every rounding behaviour and about limits in the step size and the precision", "anchors": ["src/einsteinpy/coordinates/differential.py:SphericalDifferential.velocity", "src/einsteinpy/coordinates/differential.py:BoyerLindquistDifferential.velocity", "src/einsteinpy/coordinates/utils.py:v0", "src/einsteinpy/integrators/runge_kutta.py:RK4naive.step", "src/einsteinpy/metric/schwarzschild.py:Schwarzschild._f_vec_s", "src/einsteinpy/metric/kerr.py:Kerr._f_vec_bl", "src/einsteinpy/metric/kerrnewman.py:KerrNewman._f_vec_bl"]}
{"id": "C120", "title": "Constants of motion along the trajectories of the numeric metric classes in floating point", "statement": "Along the trajectory of the preceding property the metric norm of the computed velocity stays within C (h^4 + u/h) of c^2, and the energy and axial angular momentum within C (h^4 + u/h) of their initial values, for Schwarzschild and for KerrNewman with an uncharged particle; for the Kerr class the energy does.", "quantifier": "every metric object, start, step size, number of steps, perturbation of the inputs, accurate arithmetic and inverse", "why_tests_cant": "a statement about every rounding behaviour and about limits in the step size and the precision", "anchors": ["src/einsteinpy/coordinates/differential.py:SphericalDifferential.velocity", "src/einsteinpy/integrators/runge_kutta.py:RK4naive.step", "src/einsteinpy/metric/schwarzschild.py:Schwarzschild._f_vec_s", "src/einsteinpy/metric/kerr.py:Kerr._f_vec_bl", "src/einsteinpy/metric/kerrnewman.py:KerrNewman._f_vec_bl"]}
{"id": "C121", "title": "From Cartesian coordinates to trajectory in floating point", "statement": "Starting from the Cartesian position and velocity of a body in SI units (known to within K u), converting them to the coordinates of the metric (spherical for Schwarzschild, Boyer-Lindquist for Kerr and KerrNewman), computing the 4-velocity with velocity(metric) and taking N steps of size h of RK4naive on the metric's f_vec, all in arithmetic of unit roundoff u, follows the motion of the metric that starts at the exactly converted position with the future-directed 4-velocity of norm c^2: such a motion exists, and as long as N h stays inside its interval nothing fails and every state is within C (h^4 + u/h) of it.", "quantifier": "every Schwarzschild, Kerr and KerrNewman object (charged particles included), Cartesian position off the z axis (off the plane x = 0 for the last two) and off the half plane where the azimuth jumps, subluminal velocity, step size, number of steps, perturbation of the inputs, accurate arithmetic and inverse", "why_tests_cant": "a statement about every rounding behaviour and about limits in the step size and the precision", "anchors": ["src/einsteinpy/coordinates/differential.py:CartesianDifferential.spherical_differential", "src/einsteinpy/coordinates/differential.py:CartesianDifferential.bl_differential", "src/einsteinpy/coordinates/conversion.py:CartesianConversion", "src/einsteinpy/coordinates/utils.py:cartesian_to_spherical", "src/einsteinpy/coordinates/utils.py:cartesian_to_bl", "src/einsteinpy/coordinates/utils.py:v0", "src/einsteinpy/integrators/runge_kutta.py:RK4naive.step", "src/einsteinpy/metric/kerrnewman.py:KerrNewman._f_vec_bl"]}
{"id": "C122", "title": "Geodesic with Cartesian output in floating point", "statement": "With return_cartesian=True (the default) the rows computed by Geodesic and calculate_trajectory in arithmetic of unit roundoff u with step h are, for every step taken inside the interval of the motion, within K (h^n + u/h) of the Cartesian image of the motion (positions) and of its momenta; n is the order of the integrator (C87). In any arithmetic the two modes differ only by converting the positions.", "quantifier": "every named black hole and metric callable, start outside the horizon, momentum, interval, step size, number of steps, accurate arithmetic", "why_tests_cant": "a statement about every rounding behaviour and about limits in the step size and the precision", "anchors": ["src/einsteinpy/geodesic/geodesic.py:Geodesic.__init__", "src/einsteinpy/geodesic/geodesic.py:Geodesic.calculate_trajectory"]}
{"id": "C123", "title": "From Cartesian coordinates to a Cartesian trajectory in floating point", "statement": "Converting a Cartesian position and velocity (known to within K u) to the coordinates of the metric, taking k steps of size h of RK4naive on the metric's f_vec from the 4-velocity of velocity(metric), and converting the position and spatial velocity reached back to Cartesian coordinates, all in arithmetic of unit roundoff u, stays within C (h^4 + u/h) of a curve in Cartesian coordinates and of its velocity: the curve is the image of the metric's motion, starts at (c t, x, y, z) and its velocity starts at the given velocity. This includes starts on the half plane where the azimuth jumps.", "quantifier": "every Schwarzschild, Kerr and KerrNewman object (charged particles included), Cartesian position off the z axis (off the plane x = 0 for the last two), subluminal velocity, step size, number of steps, perturbation of the inputs, accurate arithmetic and inverse", "why_tests_cant": "a statement about every rounding behaviour and about limits in the step size and the precision", "anchors": ["src/einsteinpy/coordinates/conversion.py:SphericalConversion.convert_cartesian", "src/einsteinpy/coordinates/conversion.py:BoyerLindquistConversion.convert_cartesian", "src/einsteinpy/coordinates/utils.py:spherical_to_cartesian", "src/einsteinpy/coordinates/utils.py:bl_to_cartesian", "src/einsteinpy/coordinates/utils.py:cartesian_to_bl", "src/einsteinpy/coordinates/utils.py:v0", "src/einsteinpy/integrators/runge_kutta.py:RK4naive.step"]}
{"id": "C124", "title": "The matrix inverse in floating point", "statement": "numpy.linalg.inv as metric_contravariant uses it (Gaussian elimination with partial pivoting) inverts every invertible matrix in floating point: for every invertible matrix there is a neighbourhood and a constant C such that for every matrix in it and every arithmetic of small enough unit roundoff u the elimination succeeds and every entry is within C u of that of the inverse. In exact arithmetic it returns the inverse and raises LinAlgError exactly when there is none. The same holds for any number of equations and right-hand sides.", "quantifier": "every invertible matrix, every matrix near it, every accurate arithmetic; every size of system", "why_tests_cant": "a statement about every rounding behaviour at every matrix", "anchors": ["src/einsteinpy/metric/base_metric.py:BaseMetric.metric_contravariant"]}
{"id": "C125", "title": "Chains of coordinate conversions are path independent", "statement": "Converting a coordinate object or a differential through any chain of to_cartesian/to_spherical/to_bl (or *_differential) calls with the same M and a never fails off the singular sets, every object on the way stands for the same event (and the same velocity), with radius and angles in range, and two chains from objects of the same event that end in the same system return the same object; a chain back to the starting system returns the starting values.", "quantifier": "every chain of conversions of any length, every starting system, event, velocity, M and 0 <= a <= 1, off the rotation axis for velocities and off the disc of radius alpha (and the plane x = 0 with velocities) when a Boyer-Lindquist object occurs", "why_tests_cant": "histories of conversions of unbounded length over all events", "anchors": ["src/einsteinpy/coordinates/core.py:Cartesian.to_spherical", "src/einsteinpy/coordinates/core.py:Cartesian.to_bl", "src/einsteinpy/coordinates/core.py:Spherical.to_bl", "src/einsteinpy/coordinates/core.py:BoyerLindquist.to_spherical", "src/einsteinpy/coordinates/differential.py:CartesianDifferential.spherical_differential", "src/einsteinpy/coordinates/differential.py:CartesianDifferential.bl_differential", "src/einsteinpy/coordinates/differential.py:SphericalDifferential.bl_differential", "src/einsteinpy/coordinates/differential.py:BoyerLindquistDifferential.spherical_differential", "src/einsteinpy/coordinates/conversion.py:SphericalConversion.convert_bl", "src/einsteinpy/coordinates/conversion.py:BoyerLindquistConversion.convert_spherical", "src/einsteinpy/coordinates/conversion.py:CartesianConversion.convert_bl"]}
{"id": "C126", "title": "Carter's constant and the angular momentum vector of the metric classes", "statement": "Along a motion described by KerrNewman.f_vec of an uncharged particle around a hole of nonzero mass, Carter's quantity v_theta^2 + (alpha sin(theta) v_t / c + v_phi / sin(theta))^2 + alpha^2 cos(theta)^2 g(v, v) is constant; without spin (and for Schwarzschild.f_vec) the whole angular momentum vector is constant, so the orbit stays in a plane through the centre. Computed through velocity(metric) and RK4naive in arithmetic of unit roundoff u with step h they stay within C (h^4 + u/h) of their initial values.", "quantifier": "every mass, spin 0 <= a <= 1, hole charge, position outside the coordinate singularities, subluminal 3-velocity, interval on which the motion exists, arithmetic, step size and number of steps", "why_tests_cant": "a statement about all orbits and all step counts; tests look at one orbit", "anchors": ["src/einsteinpy/metric/kerrnewman.py:KerrNewman.f_vec", "src/einsteinpy/metric/schwarzschild.py:Schwarzschild.f_vec", "src/einsteinpy/metric/base_metric.py:BaseMetric.alpha", "src/einsteinpy/coordinates/differential.py:BoyerLindquistDifferential.velocity", "src/einsteinpy/integrators/runge_kutta.py:RK4naive"]}
{"id": "C127", "title": "Orbits behind a potential barrier exist for every parameter value and are what the integrators compute", "statement": "A test body or light ray released off the axis outside a Schwarzschild, Kerr or Kerr-Newman hole, with nonzero axial angular momentum, with a radius between it and the horizon at which the radial potential of its conserved quantities is negative, has a trajectory over every parameter interval [0, T]: it never reaches that radius. So Geodesic(..) with any number of steps and any final parameter value approximates an existing orbit: for small enough steps h and unit roundoff u all rows are within K (h^n + u/h) of it and stay outside the barrier up to that error; the same holds for RK4naive on Schwarzschild.f_vec and KerrNewman.f_vec (uncharged particle) in SI units. No motion passes a radius with negative radial potential from either side.", "quantifier": "every spin, charge and mass, initial position, momentum or velocity with such a barrier, every interval length, integrator order, step size, number of steps, accurate arithmetic", "why_tests_cant": "existence for all parameter values and a bound for all step counts; tests integrate one orbit for some steps", "anchors": ["src/einsteinpy/geodesic/geodesic.py:Geodesic.__init__", "src/einsteinpy/geodesic/geodesic.py:Geodesic.calculate_trajectory", "src/einsteinpy/integrators/fantasy.py:GeodesicIntegrator.step", "src/einsteinpy/metric/schwarzschild.py:Schwarzschild.f_vec", "src/einsteinpy/metric/kerrnewman.py:KerrNewman.f_vec", "src/einsteinpy/integrators/runge_kutta.py:RK4naive"]}
{"id": "C128", "title": "Chains of coordinate conversions in floating point", "statement": "Consider any chain of conversions between Cartesian, spherical and Boyer-Lindquist objects, run in a floating-point arithmetic of unit roundoff u, on inputs within K u of the exact ones, with the spin length computed by BaseMetric.alpha in the same arithmetic. For an event off the z axis (off the x = 0 plane for velocities in Boyer-Lindquist coordinates) and, if the chain visits Boyer-Lindquist coordinates, off the disc of radius alpha, there are r > 0 and C such that for every u < r the chain succeeds and its position and velocity are within C u of those of the object the exact chain returns, the azimuth up to a full turn (without that allowance off the half-plane y = 0, x <= 0). In particular a closed chain returns to within C u of its start.", "quantifier": "every finite chain, event, velocity, hole, arithmetic of small enough unit roundoff and rounding of the inputs", "why_tests_cant": "tests convert a few points once and compare with loose tolerances; chains are unbounded and errors accumulate", "anchors": ["src/einsteinpy/coordinates/conversion.py:CartesianConversion", "src/einsteinpy/coordinates/conversion.py:SphericalConversion", "src/einsteinpy/coordinates/conversion.py:BoyerLindquistConversion", "src/einsteinpy/coordinates/utils.py", "src/einsteinpy/metric/base_metric.py:BaseMetric.alpha", "src/einsteinpy/coordinates/core.py", "src/einsteinpy/coordinates/differential.py"]}
{"id": "C129", "title": "Symbolic constants keep their identity and description", "statement": "get_constant returns, for each of its four names, the module's constant with its name, whatever was constructed before, and raises KeyError for any other name. SymbolicConstant(name, description, **assumptions) returns a symbol of that name, assumptions and description; symbols of one name and the same assumptions are equal, symbols of different names are not. A constant, once handed out, keeps the descriptive_name it was made with.", "quantifier": "every history of constructions and of losses of entries of sympy's symbol cache", "why_tests_cant": "tests read one description right after import; the property is about what later constructions do to objects already handed out", "anchors": ["src/einsteinpy/symbolic/constants.py:SymbolicConstant", "src/einsteinpy/symbolic/constants.py:get_constant"]}
{"id": "C130", "title": "Which bodies are captured, escape, fly by or stay bound, and that the integrators compute it", "statement": "A test body or light ray released off the axis outside a Schwarzschild, Kerr or Kerr-Newman hole with nonzero axial angular momentum can be followed to any final parameter value or until it reaches a given radius outside the horizon. If it moves inwards and its radial potential has no root down to that radius it falls to it, ever inwards. If it moves outwards, with no root ahead and energy above its rest energy, it exists for ever and recedes at least linearly. If it moves inwards towards a simple root beyond which the potential is positive, it reaches exactly that radius, and then recedes for ever. If its energy is below its rest energy and there is a barrier inside, it stays between two radii for ever. In each case the rows of Geodesic(..) (any order), and of RK4naive on Schwarzschild.f_vec and KerrNewman.f_vec (uncharged particle, SI units, 4-velocity from velocity(metric)), are within K (h^n + u/h) of that orbit, for small enough step h and unit roundoff u, as far as it was said to exist.", "quantifier": "every spin, charge and mass, initial position, momentum or velocity of each kind, interval length, integrator order, step size, number of steps, accurate arithmetic", "why_tests_cant": "statements about what happens for all parameter values; a test integrates for some steps", "anchors": ["src/einsteinpy/geodesic/geodesic.py:Geodesic.__init__", "src/einsteinpy/geodesic/geodesic.py:Geodesic.calculate_trajectory", "src/einsteinpy/integrators/fantasy.py:GeodesicIntegrator.step", "src/einsteinpy/metric/schwarzschild.py:Schwarzschild.f_vec", "src/einsteinpy/metric/kerrnewman.py:KerrNewman.f_vec", "src/einsteinpy/integrators/runge_kutta.py:RK4naive", "src/einsteinpy/coordinates/utils.py:v0"]}
{"id": "C131", "title": "The fractal figure and its slider", "statement": "For every pair of angles and every number of steps n >= 1, fractal builds a figure of n heatmaps, the k-th being the image of the k-th of n angles evenly spaced from start to end, and an n-position slider standing at the last. Before the slider is moved every heatmap is visible and the last lies on top; after any sequence of moves exactly the heatmap at the slider's position is visible and no image has changed. divs = 0 raises IndexError and divs < 0 ValueError.", "quantifier": "all angles, numbers of steps, image sizes, iteration limits and histories of slider moves", "why_tests_cant": "Unbounded histories of user moves; images of any size.", "anchors": ["src/einsteinpy/plotting/fractal.py:fractal", "src/einsteinpy/plotting/fractal.py:_fractal_img"]}
{"id": "C132", "title": "One orbit for all parameter values, and its fate", "statement": "A body released outside a named black hole (Schwarzschild, Kerr, Kerr-Newman), or started in the SI classes (uncharged KerrNewman, Schwarzschild), behind a potential barrier, or outwards with nothing to turn it back and energy above its rest energy, has exactly one orbit defined for every parameter value t >= 0. On it: r stays beyond the barrier; an outgoing body recedes beyond every radius; an ingoing one reaches the turning point at one finite t and then recedes beyond every radius; a body of energy below its rest energy stays between two radii for ever. Over every interval [0, T] the computed rows are within K (h^n + u/h) of that one orbit in every arithmetic of unit roundoff u; so for every eps a small enough step and an IEEE format of enough bits give rows within eps.", "quantifier": "all parameters of the metrics, initial data, orders, step sizes, intervals and arithmetics", "why_tests_cant": "An orbit for all t is not reachable by any run; the claim is about all of them.", "anchors": ["src/einsteinpy/geodesic/geodesic.py:Geodesic", "src/einsteinpy/integrators/fantasy.py:GeodesicIntegrator", "src/einsteinpy/metric/base_metric.py:BaseMetric.f_vec", "src/einsteinpy/integrators/runge_kutta.py:RK4naive.step"]}
