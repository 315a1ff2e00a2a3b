# Source of truth for properties.jsonl (run: python3 tools/props.py from /verif)
import json
P=[]
def p(title, statement, quantifier, why, *anchors):
    P.append(dict(id="C%02d"%(len(P)+1), title=title, statement=statement, quantifier=quantifier, why_tests_cant=why, anchors=list(anchors)))
S="src/einsteinpy/"
INF="A test samples finitely many points of a continuum; the claim is about every one."
# --- automatic differentiation
p("Forward-mode AD is exact","Running any arithmetic program (+,-,*,/,unary -, integer powers, sin, cos, tan, exp, log, mixing floats and DualNumbers) on a DualNumber seeded with derivative 1 returns the program's value and its exact derivative wherever the program is defined (no zero denominators, no non-positive log arguments).","every expression tree of the operations, every base point, every seeded variable",INF+" The set of programs is infinite too.",S+"utils/dual.py:DualNumber",S+"utils/dual.py:_deriv")
p("AD at removable 0/0 points","When DualNumber division meets 0/0 it returns the quotient's limit together with the quotient's derivative.","every pair of differentiable functions vanishing together",INF,S+"utils/dual.py:DualNumber.__truediv__")
p("DualNumber arithmetic laws","DualNumber + and * are commutative and associative, * distributes, - and unary - are consistent, and mixing with a plain float on either side gives exactly the result of lifting the float to DualNumber(x, 0); == and != compare value and derivative.","all dual numbers and floats (over exact reals)",INF,S+"utils/dual.py:DualNumber")
p("Metric Jacobian","_jacobian_g returns a symmetric matrix whose (i,j) entry is the partial derivative of the metric component with respect to the requested coordinate; bad wrt or index arity raises ValueError.","every metric expressible with the supported operations, every point where it is defined, every wrt",INF,S+"utils/dual.py:_diff_g",S+"utils/dual.py:_jacobian_g")
# --- geodesic metrics
p("Built-in contravariant metrics are right","The geodesic module's Schwarzschild, Kerr and Kerr-Newman functions return the matrix inverse of the textbook covariant line elements (signature -+++), Kerr-Newman with Q=0 is Kerr and Kerr with a=0 is Schwarzschild.","all spins, charges, radii and angles off the horizon, ring and axis",INF,S+"geodesic/utils.py:_sch",S+"geodesic/utils.py:_kerr",S+"geodesic/utils.py:_kerrnewman")
p("Initial 4-momentum is on shell","Geodesic's initial momentum satisfies g(p,p) = -1 (time-like) or 0 (null-like), keeps the user's three spatial components, and is future directed, whenever the discriminant is non-negative.","all supported metrics, positions, spatial momenta",INF,S+"geodesic/utils.py:_P",S+"geodesic/geodesic.py:Geodesic")
p("Initial 4-momentum for user-supplied metrics","The same on-shell property for any user-supplied metric callable.","all symmetric contravariant metrics",INF,S+"geodesic/utils.py:_P")
# --- FANTASY
p("Mixed flow is the exact coupling rotation","The coupling flow preserves the mean of the two copies, preserves |dq|^2+|dp|^2, composes additively in the step and is inverted by the negative step.","all phase-space points, all steps and couplings",INF,S+"integrators/utils.py:_flow_mixed")
p("Half flows are exact Hamiltonian flows","_flow_A and _flow_B are the exact time-delta flows of H_A = 1/2 g(q1)p2p2 and H_B = 1/2 g(q2)p1p1: the changed variables obey Hamilton's equations with the metric's true derivatives and the half Hamiltonian is conserved.","all AD-supported symmetric metrics, all phase-space points where defined, all deltas",INF,S+"integrators/utils.py:_flow_A",S+"integrators/utils.py:_flow_B",S+"integrators/utils.py:_PartHamFlow")
p("Integrator is time reversible","For every order, a step of size delta followed by a step of size -delta returns exactly to the start (exact arithmetic).","all metrics, states, deltas, couplings and orders 2,4,6,8",INF,S+"integrators/fantasy.py:GeodesicIntegrator._ord_2",S+"integrators/fantasy.py:GeodesicIntegrator._ord_4")
p("Conserved momenta of cyclic coordinates","If the metric does not depend on a coordinate, the total (both copies) conjugate momentum of that coordinate is unchanged after any number of steps of any order; for the built-in metrics this covers energy and axial angular momentum.","all metrics with a cyclic coordinate, any number of steps, all orders",INF+" Also unbounded step counts.",S+"integrators/fantasy.py:GeodesicIntegrator.step")
p("Yoshida coefficients","The triple-jump coefficients sum to one and satisfy the odd-power cancellation condition of the requested order, so order=4 cancels the cubic error term.","all even orders >= 4",INF,S+"integrators/utils.py:_Z",S+"integrators/fantasy.py:GeodesicIntegrator._ord_4")
p("Orders 6 and 8 satisfy the order-4 condition","The substep weights actually used by order=6 and order=8 satisfy the cubic cancellation that any order>=4 composition needs.","the composed schemes",INF,S+"integrators/fantasy.py:GeodesicIntegrator._ord_6",S+"integrators/fantasy.py:GeodesicIntegrator._ord_8")
p("Integrator history bookkeeping","After any number of step() calls, step_num equals the number of calls, results holds exactly the successive states in order, nothing already recorded changes, and suppress_warnings only affects warnings; a warning is issued exactly at steps whose g(p,p) misses its target by more than atol + rtol*|target|.","every call history",  "Unbounded histories.",S+"integrators/fantasy.py:GeodesicIntegrator.step",S+"integrators/fantasy.py:GeodesicIntegrator.__init__")
p("Geodesic construction contract","An unknown metric name or order raises NotImplementedError; otherwise trajectory has exactly `steps` rows, the i-th row being the state after i+1 integrator steps, Cartesian output is the spherical-to-Cartesian image of the positions with momenta untouched, and the two coordinate modes agree.","all constructor arguments","Unbounded step counts and inputs.",S+"geodesic/geodesic.py:Geodesic.calculate_trajectory",S+"geodesic/geodesic.py:Geodesic.__init__")
# --- RK
p("RK4naive update is classical RK4","Each accepted step advances t by exactly stepsize; k steps give t0+k*h; quadrature of cubic polynomials is exact and y'=lam*y is multiplied by the degree-4 Taylor polynomial of exp.","all right-hand sides, step sizes and step counts",INF,S+"integrators/runge_kutta.py:RK4naive.step")
p("RK4naive respects t_bound","The integration won't continue beyond t_bound: once t has passed t_bound, step() leaves t and y unchanged.","all start times, bounds, step sizes, histories","Unbounded histories.",S+"integrators/runge_kutta.py:RK4naive.__init__",S+"integrators/runge_kutta.py:RK4naive.step")
p("RK45 wrapper never raises on a finished solver","step() on a failed or finished solver turns the solver's RuntimeError into a warning and leaves t and y unchanged; defaults rtol=0.2*h, atol=rtol/800 apply only when omitted.","every history of step calls, every underlying solver behaviour","The solver's outcomes are unbounded.",S+"integrators/runge_kutta.py:RK45")
# --- coordinates
p("Cartesian to spherical and back","Converting Cartesian to spherical and back returns the same t,x,y,z for every point including the axis and origin; the spherical result has r>=0, 0<=theta<=pi, -pi<phi<=pi.","every point of space",INF,S+"coordinates/utils.py:cartesian_to_spherical_novel",S+"coordinates/utils.py:spherical_to_cartesian_novel")
p("Spherical to Cartesian and back","Converting spherical to Cartesian and back is the identity on r>0, 0<theta<pi, -pi<phi<=pi.","every point of the chart",INF,S+"coordinates/utils.py:spherical_to_cartesian_novel")
p("Cartesian/spherical velocities obey the chain rule","The converted velocity components are the time derivatives of the converted position components along any differentiable path, in both directions (off the axis), so the round trip is the identity on velocities.","every path through every point off the axis",INF,S+"coordinates/utils.py:cartesian_to_spherical",S+"coordinates/utils.py:spherical_to_cartesian")
p("Cartesian/Boyer-Lindquist position round trip","BL-to-Cartesian-to-BL is the identity on r>0, 0<theta<pi, -pi<phi<=pi, and Cartesian-to-BL-to-Cartesian is the identity wherever the BL radius is positive.","every point, every spin",INF,S+"coordinates/utils.py:cartesian_to_bl_novel",S+"coordinates/utils.py:bl_to_cartesian_novel")
p("Boyer-Lindquist velocities obey the chain rule","The converted velocity components are the time derivatives of the converted positions along any differentiable path, both directions, where x is non-zero and the point is off the axis.","every path, every spin",INF,S+"coordinates/utils.py:cartesian_to_bl",S+"coordinates/utils.py:bl_to_cartesian")
p("BL azimuthal velocity is available wherever it is defined","v_phi from cartesian_to_bl is finite at every point off the rotation axis.","every point off the axis",INF,S+"coordinates/utils.py:cartesian_to_bl")
p("Zero spin makes BL spherical","With alpha=0 the Boyer-Lindquist conversions (positions and velocities) agree with the spherical ones, in both directions, wherever the Boyer-Lindquist result is defined (positions: off the origin; velocities: x non-zero, see C24).","every point",INF,S+"coordinates/utils.py")
p("Conversion objects dispatch","Conversion classes return 7 components iff all three velocities were given and otherwise 4; BL conversions without both M and a raise KeyError; invalid spin raises ValueError; indirect conversions equal going through Cartesian.","all argument combinations","Combinatorial and continuous input space.",S+"coordinates/conversion.py")
p("Coordinates are independent of the units used","A coordinate or differential object is built exactly from quantities of the documented dimensions (a plain number raises TypeError, another dimension UnitsError). Position, differential and velocity results do not depend on the units in which the user expressed the inputs: position() is (c t, x, y, z) in SI units, and a converted object holds the conversion of the SI values.","all values, all positive unit scales",INF,S+"coordinates/core.py",S+"coordinates/differential.py")
p("Metric parameters are independent of the units used","Schwarzschild radius and other metric quantities do not depend on the (mass-equivalent) unit in which M was given.","all masses, all unit scales",INF,S+"units.py:primitive",S+"metric/base_metric.py:BaseMetric.schwarzschild_radius")
p("4-velocity normalisation","velocity(metric) returns a 4-velocity with g(v,v)=c^2 that keeps the three given components whenever the discriminant is non-negative and g_00 non-zero, and its time component is positive outside the ergosphere for time-like data; a coordinate-system mismatch raises CoordinateError and leaves the object unchanged.","all metrics (symmetric matrices) and velocities, all call histories",INF,S+"coordinates/utils.py:v0",S+"coordinates/differential.py")
p("Coordinate subscripting","obj[i] for -4<=i<4 and obj[name] address the same components in the documented order; anything else raises IndexError/KeyError.","all integer and string keys","All integers and strings.",S+"coordinates/core.py:Cartesian.__getitem__")
p("Lorentz factor","lorentz_factor is >= 1 for sub-luminal velocities, equals 1 only at rest, and is rotation invariant.","all sub-luminal velocities",INF,S+"coordinates/utils.py:lorentz_factor")
# --- metrics
p("Spin validation and horizon helper functions","alpha raises ValueError exactly outside 0<=a<=1; otherwise alpha = a*r_s/2; rho^2 = sigma; sigma and delta have their documented values and delta with Q=0 is the Kerr delta.","all masses, spins, charges, positions",INF,S+"metric/base_metric.py:BaseMetric.alpha",S+"metric/base_metric.py:BaseMetric.delta")
p("Reported singularities are the horizons and ergospheres","For admissible parameters the reported horizons are the roots of delta, the ergosphere radii are the roots of g_00's numerator, and 0 <= inner ergosphere <= inner horizon <= outer horizon <= outer ergosphere at every angle; unsupported coordinates raise CoordinateError.","all masses, spins, charges, angles",INF,S+"metric/base_metric.py:BaseMetric.singularities")
p("Schwarzschild connection","Schwarzschild's tabulated Christoffel symbols are exactly the Levi-Civita connection of its metric_covariant at every point.","every mass, every point off horizon, centre and axis",INF,S+"metric/schwarzschild.py:Schwarzschild._ch_sym_s")
p("Kerr metric derivatives","Kerr's tabulated derivative array is the derivative of its covariant metric, component by component.","every mass, spin and point",INF,S+"metric/kerr.py:Kerr._dg_dx_bl")
p("Kerr-Newman metric derivatives","Kerr-Newman's tabulated derivative array is the derivative of its covariant metric, component by component.","every mass, spin, charge and point",INF,S+"metric/kerrnewman.py:KerrNewman._dg_dx_bl")
p("Kerr-Newman metric depends on the charge","The covariant Kerr-Newman metric is the textbook one with the charge term in delta, so its radial singularities are at the reported horizons.","every mass, spin, charge and point",INF,S+"metric/kerrnewman.py:KerrNewman._g_cov_bl")
p("Sparse Christoffel evaluation is complete","The sparse loops over the precomputed index list produce, for every index triple, the full sum 1/2 g^im(d_l g_mk + d_k g_ml - d_m g_kl), and the precomputed list is exactly the set computed by nonzero_christoffels.","all metrics of the Kerr block form, all 64 index triples",INF,S+"metric/kerr.py:Kerr._ch_sym_bl",S+"metric/kerrnewman.py:KerrNewman._ch_sym_bl",S+"metric/kerr.py:Kerr.nonzero_christoffels")
p("Geodesic right-hand side","f_vec returns the velocity followed by -Gamma^i_jk v^j v^k with the full double sum.","all states",INF,S+"metric/schwarzschild.py:Schwarzschild._f_vec_s",S+"metric/kerr.py:Kerr._f_vec_bl",S+"metric/kerrnewman.py:KerrNewman._f_vec_bl")
p("Geodesic flow preserves the norm","Along the flow of f_vec the norm g(v,v) has zero derivative (Schwarzschild, Kerr, uncharged Kerr-Newman).","all states",INF,S+"metric/kerr.py:Kerr._f_vec",S+"metric/schwarzschild.py:Schwarzschild._f_vec")
p("Electromagnetic tensor is the exterior derivative of the potential","em_tensor_covariant is antisymmetric and equals d_i A_j - d_j A_i for em_potential_covariant; raising indices preserves antisymmetry.","all masses, spins, charges, points",INF,S+"metric/kerrnewman.py:KerrNewman.em_tensor_covariant",S+"metric/kerrnewman.py:KerrNewman.em_potential_covariant")
p("Lorentz force preserves the norm","For a charged test particle the electromagnetic term added by f_vec does no work on the 4-velocity norm: g(v, force) = 0.","all states, charges",INF,S+"metric/kerrnewman.py:KerrNewman._f_vec_bl")
p("Covariant and contravariant metrics are inverse","metric_contravariant is the matrix inverse of metric_covariant, and metric_covariant is the user metric plus the perturbation when one is set.","all user metrics and perturbations with invertible sum",INF,S+"metric/base_metric.py:BaseMetric.metric_contravariant")
# --- symbolic
p("Symbolic Christoffel symbols","ChristoffelSymbols.from_metric computes 1/2 g^in(d_k g_nj + d_j g_nk - d_n g_jk) at every index, is symmetric in the lower indices, and is metric compatible (covariant derivative of g vanishes), for every metric in every dimension.","every dimension, every symmetric invertible metric of smooth expressions",INF+" Every dimension.",S+"symbolic/christoffel.py:ChristoffelSymbols.from_metric")
p("Symbolic Riemann tensor","RiemannCurvatureTensor.from_christoffels computes its documented formula at every index; with all indices lowered it is antisymmetric in each pair, pair symmetric and satisfies the first Bianchi identity.","every dimension, every metric",INF+" Every dimension.",S+"symbolic/riemann.py:RiemannCurvatureTensor.from_christoffels")
p("Symbolic Ricci tensor and scalar","RicciTensor is the (0,2) contraction of Riemann, symmetric; RicciScalar is its metric trace; all constructors (from metric, Christoffels, Riemann, Ricci) agree.","every dimension, every metric",INF+" Every dimension.",S+"symbolic/ricci.py")
p("Einstein tensor is divergence free","EinsteinTensor.from_metric is symmetric, has trace (1-n/2)R, and its covariant divergence vanishes identically (contracted second Bianchi identity).","every dimension, every metric",INF+" Every dimension.",S+"symbolic/einstein.py:EinsteinTensor.from_metric")
p("Stress-energy tensor","StressEnergyMomentumTensor.from_metric is c^4/(8 pi G) (G - Lambda g), symmetric, and covariantly conserved.","every metric",INF,S+"symbolic/stress_energy_momentum.py")
p("Weyl tensor","WeylTensor.from_metric has the Riemann symmetries, is totally trace free, is zero in 3 dimensions and raises ValueError below 3.","every dimension, every metric",INF,S+"symbolic/weyl.py:WeylTensor.from_metric")
p("Schouten decomposition","Riemann (lowered) = Weyl + Kulkarni-Nomizu of SchoutenTensor with g, and trace of Schouten is R/(2(n-1)).","every dimension >= 4, every metric",INF,S+"symbolic/schouten.py:SchoutenTensor.from_metric",S+"symbolic/weyl.py")
p("Index raising and lowering round trip","change_config touches exactly the indices whose letter changes, contracting with the metric or its inverse; changing to any configuration and back returns the original tensor; a configuration of the wrong length or with other characters raises ValueError.","every rank, every pair of configurations, every dimension, every invertible metric","Unbounded rank and all tensors.",S+"symbolic/tensor.py:_change_config",S+"symbolic/tensor.py:_difference_list")
p("Tensor product and contraction","tensor_product without indices is the outer product with concatenated configuration; with i,j it contracts those slots, drops their letters, and raises ValueError exactly when both letters agree.","all ranks, all index choices","Unbounded rank.",S+"symbolic/tensor.py:tensor_product")
p("Index arguments of tensor_product are honoured","Passing only one contraction index is rejected and passing i=None,j=None is the only way to get the outer product.","all index choices","All index choices.",S+"symbolic/tensor.py:tensor_product")
p("Lorentz transforms","lorentz_transform transforms every index; a transform preserving a metric leaves that metric unchanged; the result keeps the configuration.","every rank, every matrix","Unbounded rank, all matrices.",S+"symbolic/tensor.py:BaseRelativityTensor.lorentz_transform")
p("Lorentz transforms preserve invariants","Contracting an upper and a lower index commutes with lorentz_transform (scalars are invariant) for every Lorentz transformation.","every Lorentz matrix, all vectors and covectors",INF,S+"symbolic/tensor.py:BaseRelativityTensor.lorentz_transform")
p("Metric inverse caching","inv() is the matrix inverse with the opposite configuration, inv().inv() is the original object, repeated calls return the same object, and lower_config always yields the covariant form, for every sequence of calls; mixed configurations are refused by change_config.","every call history, every invertible metric","Unbounded call histories.",S+"symbolic/metric.py:MetricTensor")
p("Tensor construction checks","A Tensor is accepted iff the configuration uses only u/l and its length equals the array's rank, with the documented exception types; then order = len(config) = rank.","all strings and array shapes","All strings, all shapes.",S+"symbolic/tensor.py:Tensor.__init__",S+"symbolic/tensor.py:_config_checker")
p("Substitution keeps the tensor's configuration","subs returns a tensor of the same rank and configuration.","all tensors","All ranks/configurations.",S+"symbolic/tensor.py:Tensor.subs")
p("Transformation matrix inverse","TransformationMatrix.inv() is the inverse matrix.","all invertible matrices",INF,S+"symbolic/helpers.py:TransformationMatrix.inv")
p("Array simplification is shape preserving and lossless","Flattening a nested array enumerates every element once in row-major order, so simplify_sympy_array returns an array of the same shape whose entries denote the same values.","arbitrary nesting depth and shapes","Unbounded depth.",S+"symbolic/helpers.py:_flatten_list",S+"symbolic/helpers.py:simplify_sympy_array")
p("Flat-space and constant-curvature predefined metrics","Minkowski metrics have zero Riemann tensor, the static anti-de Sitter metric has Ricci = -3 g; at every point of the chart.","every point, every value of c",INF,S+"symbolic/predefined/minkowski.py",S+"symbolic/predefined/de_sitter.py")
p("Schwarzschild is a vacuum solution","The predefined symbolic Schwarzschild metric has zero Ricci tensor everywhere in its chart.","every mass, c and point",INF,S+"symbolic/predefined/vacuum_solutions.py:Schwarzschild")
p("De Sitter metric is de Sitter","The predefined DeSitter metric is an Einstein metric: Ricci = 3/alpha^2 g.","every point",INF,S+"symbolic/predefined/de_sitter.py:DeSitter")
p("Predefined solutions specialise correctly","Kerr-Newman with Q=0 is Kerr, Kerr with a=0 is Schwarzschild, Reissner-Nordstrom with Q=0 is Schwarzschild, Kerr-Newman with a=0 is Reissner-Nordstrom, JanisNewmanWinicour with gamma=1 is Schwarzschild up to signature; all predefined metrics are symmetric.","all parameters and points",INF,S+"symbolic/predefined")
p("Alcubierre shape function depends on Euclidean distance","The warp-bubble radius is the Euclidean distance from the ship, and the shape function of it is (tanh(sigma(r+R)) - tanh(sigma(r-R)))/(2 tanh(sigma R)), which is 1 at the ship.","all points",INF,S+"symbolic/predefined/alcubierre_warp.py")
p("find()","find returns exactly the exposed names that contain the search string ignoring case and are not all lower case.","all search strings","All strings.",S+"symbolic/predefined/find.py")
# --- misc
p("Flat loop index decoding","The flattened loops' index decoding int(t/d**k) % d with floating-point division visits every index tuple exactly once for every dimension that fits in memory.","every dimension d with d**4 < 2**53","Float rounding over unboundedly many indices.",S+"symbolic/christoffel.py:ChristoffelSymbols.from_metric",S+"symbolic/riemann.py",S+"symbolic/weyl.py")
p("Cosmological scale factor derivative","scalar_factor_derivative is the time derivative of scalar_factor in each era and both raise ValueError for any other era.","all t>0, all tuning parameters, all era strings",INF,S+"utils/scalar_factor.py")
p("Embedding sampling","get_values terminates for every positive mass and alpha, returns two lists of equal length, samples only radii in (9M/4, 9M) starting at r_init, and get_values_surface's Z repeats the profile once per angle.","all masses and alphas","Unbounded loop lengths.",S+"hypersurface/schwarzschildembedding.py:SchwarzschildEmbedding.get_values")
p("Embedding is isometric","The embedding's slope satisfies (dR/dr)^2 + (dZ/dr)^2 = (1-2M/r)^-2, i.e. the plotted surface carries the optical metric.","all masses and radii > 9M/4",INF,S+"hypersurface/schwarzschildembedding.py:SchwarzschildEmbedding.gradient")
p("Shadow arrays stay aligned","For every ray count and root-finder outcome, intensity, fb1 and fb2 have equal length, fb2 = -fb1, and each intensity entry belongs to its impact parameter.","all ray counts, every root-finder and quadrature outcome","External solvers' outcomes are unbounded.",S+"rays/shadow.py:Shadow")
p("Plotted ergosphere is the metric's ergosphere","The ergosphere radius drawn for spin a at polar angle theta is 1+sqrt(1-a^2 cos^2 theta), between the horizon radius and 2.","all spins and angles",INF,S+"plotting/geodesic/static.py:StaticGeodesicPlotter._draw_bh")
p("Plotter argument checks","plot raises ValueError for unknown aspects and plot2D raises IndexError exactly when a coordinate index is outside 1..3; otherwise the plotted columns are those indices of the trajectory.","all arguments","All integers/strings.",S+"plotting/geodesic/static.py:StaticGeodesicPlotter.plot2D")
p("Fractal image","Every pixel terminates within iter_max iterations and lies in [0,1], equals (k/iter_max)^0.2 for the first k whose orbit leaves the disc (or iter_max).","all image sizes, parameters and windows",INF,S+"plotting/fractal.py:_julia")
p("primitive strips units in order","primitive returns one entry per argument, in order: the stored value for quantities, the argument itself otherwise.","all argument lists","Unbounded argument lists.",S+"units.py:primitive")
p("Error messages keep all arguments","BaseError/CoordinateError join the string forms of all arguments with single spaces and print ClassName : message.","all argument lists","Unbounded.",S+"utils/exceptions.py")
p("Body state","A Body with coordinates exposes position and velocity triples in the coordinate system's order; without coordinates it exposes none.","all bodies","All inputs.",S+"bodies.py:Body")
p("Lambdified argument order","tensor_lambdify with no arguments orders its arguments as axis symbols followed by the remaining free symbols, which are duplicate free, disjoint from the axes and sorted by name.","all tensors","All symbol sets.",S+"symbolic/tensor.py:BaseRelativityTensor.tensor_lambdify",S+"symbolic/tensor.py:BaseRelativityTensor.__init__")
p("Kerr is a vacuum solution","The predefined symbolic Kerr metric has zero Ricci tensor everywhere in its chart.","every mass, spin, c and point",INF,S+"symbolic/predefined/vacuum_solutions.py:Kerr")
p("Charged predefined black holes are electrovacuum","The Ricci tensor computed for ReissnerNordstorm and KerrNewman is traceless (Ricci scalar 0) with the mixed components of a Coulomb-type field of charge Q (eigenvalues +-c^2 r_Q^2/Sigma^2), everywhere in the chart.","every mass, spin, charge, constants and point",INF,S+"symbolic/predefined/vacuum_solutions.py:KerrNewman",S+"symbolic/predefined/vacuum_solutions.py:ReissnerNordstorm")
p("Other predefined metrics solve their field equations","BertottiKasner has Ricci = lambda c^2 g; Godel has Ricci = 2 omega^2 u u (rotating dust with cosmological constant); Davidson is a radiation fluid; the C-metric with f cubic and h(y) = -f(-y) is vacuum; Ernst has zero Ricci scalar and paired mixed components; BarriolaVilenkin has only the solid-angle-deficit curvature 1-k^2; at every point of their charts.","all parameters and points",INF,S+"symbolic/predefined")
p("JanisNewmanWinicour is a scalar-field solution","The predefined JanisNewmanWinicour metric has only a radial Ricci component (static massless scalar source) for every value of c.","all parameters and points",INF,S+"symbolic/predefined/janis_newman_winicour.py")
p("Shadow intensities are positive","When the root finder returns turning points outside 3M, every computed intensity is a finite positive number (the one at exactly the critical impact parameter excepted).","all masses, fields of view, ray counts and limits",INF,S+"rays/shadow.py:Shadow")
p("Shadow turning points","The radius from which an outer ray's intensity is integrated is the turning point of the photon orbit with that impact parameter around the given mass.","all masses and impact parameters",INF,S+"rays/shadow.py:Shadow")
p("Interactive figures accumulate","After any sequence of calls the interactive figure holds exactly the traces of the calls made since the last clear, in order, and a call that raises leaves the figure as it was.","all call histories","Histories are unbounded.",S+"plotting/geodesic/interactive.py:InteractiveGeodesicPlotter",S+"plotting/geodesic/static.py:StaticGeodesicPlotter")
p("Animation shows the whole trajectory","animate's axis limits contain every point of the trajectory, frame k shows its first k points, and the last frame shows all of it.","all trajectories","Unbounded trajectories.",S+"plotting/geodesic/static.py:StaticGeodesicPlotter.animate")
p("Order of accuracy of the symplectic integrator",
"For every metric program that is symmetric and every geodesic of it (a solution of Hamilton's equations of 1/2 g^ij p_i p_j around parameter 0, started where the metric is defined), one step of size delta of GeodesicIntegrator with order 2, 4, 6 or 8 started from the geodesic's initial data succeeds for all small delta and differs from the geodesic at parameter delta by at most M |delta|^3 in every component of both copies; with order 4 by at most M |delta|^5.",
"all metric programs, all geodesics, all coupling constants omega, all sufficiently small step sizes of either sign",
"convergence order is a statement about a limit over step sizes for every metric; a test samples a few step sizes where round-off hides the order",
S+"integrators/fantasy.py:GeodesicIntegrator",S+"integrators/utils.py:_Z",S+"integrators/utils.py:_flow_A",S+"integrators/utils.py:_flow_mixed")
p("The integrator step is a symplectic map",
"For every metric program, every supported order, every step size and coupling constant, the step map on the doubled phase space (q1, p1, q2, p2) preserves the canonical area dq1^dp1 + dq2^dp2: for any two curves of initial data through a common point at which the step evaluates the metric only where it is defined, the image curves are differentiable there and the symplectic product of their velocities equals that of the original velocities.",
"all metric programs, phase-space points, pairs of differentiable curves through them, step sizes, orders 2, 4, 6, 8",
"symplecticity is an identity between derivatives of the step map at every point in every pair of directions",
S+"integrators/fantasy.py:GeodesicIntegrator",S+"integrators/utils.py:_flow_A",S+"integrators/utils.py:_flow_B",S+"integrators/utils.py:_flow_mixed")
p("Computed trajectories converge to the geodesic",
"For every symmetric metric program and every geodesic of it that stays in the metric's domain over a parameter interval [0, T], calculate_trajectory with N steps of size T/N succeeds for all large N, and every row of the returned trajectory lies within C (T/N)^2 of the geodesic at its parameter (C (T/N)^4 with order 4), with C independent of N and of the row.",
"all metric programs, geodesics, intervals, coupling constants, and all sufficiently large numbers of steps",
"global convergence is a limit over step counts, uniformly over unboundedly many rows; tests compare one run with one tolerance",
S+"geodesic/geodesic.py:Geodesic.calculate_trajectory",S+"integrators/fantasy.py:GeodesicIntegrator")
p("Tensor objects through histories of operations",
"After any successful sequence of change_config and lorentz_transform calls a tensor object has the class and dimension it started with, the configuration of the last change_config, the metric last used as its parent (none after a later Lorentz transformation) and its name extended by one tag per operation; change_config raises Exception exactly when neither an argument nor a parent supplies a metric, and succeeds with the default arguments on every object that has one.",
"all classes, all call histories, all metrics and matrices",
"histories are unbounded and the claim ranges over every class",
S+"symbolic/stress_energy_momentum.py:StressEnergyMomentumTensor.change_config",S+"symbolic/ricci.py:RicciTensor",S+"symbolic/vector.py:GenericVector",S+"symbolic/tensor.py:BaseRelativityTensor",S+"symbolic/helpers.py:_change_name")
p("A Runge-Kutta step is accurate to fifth order in the step size",
"For every system y' = f(t, y) whose right-hand side has Lipschitz first partial derivatives near a point and every solution through that point with a bounded fifth derivative, one step of RK4naive of size h (of either sign) started on the solution lands within M |h|^5 of it, with one M for all starting points nearby and all small h. For right-hand sides built from arithmetic and elementary functions no smoothness has to be assumed.",
"all systems of any number of equations, solutions, starting times, step sizes and t_bound values",
"the order of accuracy is a limit statement over all step sizes and all right-hand sides",
S+"integrators/runge_kutta.py:RK4naive.__init__",S+"integrators/runge_kutta.py:RK4naive.step")
p("Runge-Kutta integration converges with order four",
"For every such system and every solution that exists over an interval of length T from t0 (T of either sign), N calls of RK4naive.step with h = T/N visit exactly the times t0 + k T/N, and every visited state is within C |T/N|^4 of the solution there, with C independent of N and k, for all large N.",
"all systems, solutions, intervals, numbers of steps",
"global convergence is a limit over step counts; tests compare one run with one tolerance",
S+"integrators/runge_kutta.py:RK4naive.__init__",S+"integrators/runge_kutta.py:RK4naive.step")
p("Computed trajectories stay on the mass shell",
"1/2 g^ij p_i p_j is constant along every exact geodesic, and for every such geodesic over [0, T] each row of the trajectory computed with N steps of size T/N has it within C (T/N)^2 of the initial value (C (T/N)^4 with order 4), with C independent of N and of the row, for all large N: timelike trajectories stay timelike and null ones null up to the method's error.",
"all metric programs, geodesics, intervals, coupling constants and all sufficiently large numbers of steps",
"a drift bound over unboundedly many rows and all step counts; tests check one orbit with one tolerance",
S+"geodesic/geodesic.py:Geodesic.calculate_trajectory",S+"integrators/fantasy.py:GeodesicIntegrator.step")
p("BesselGravitationalWave is a vacuum solution",
"The predefined BesselGravitationalWave metric (documented as Kramer's exact solution of Einstein's vacuum field equations) has zero Ricci tensor at every point of its chart, for every value of the constant C.",
"every constant C and every point with rho > 0",INF,S+"symbolic/predefined/bessel_gravitational_wave.py:BesselGravitationalWave")
p("Energy and angular momentum are constants of motion",
"Along every trajectory of the equations of motion returned by f_vec the covariant components g_tj v^j (energy) and g_phij v^j (axial angular momentum) of an uncharged test particle's velocity are constant, for Schwarzschild, Kerr and KerrNewman metric objects.",
"every mass, spin, charge of the hole, trajectory and parameter interval",INF,
S+"metric/schwarzschild.py:Schwarzschild.f_vec",S+"metric/kerr.py:Kerr.f_vec",S+"metric/kerrnewman.py:KerrNewman.f_vec")
p("Computed geodesics respect the symmetries of spacetime",
"Around the built-in black holes, turning the initial azimuth by any angle turns the whole computed Geodesic (position, momentum, every trajectory row, spherical or Cartesian output) by that angle, and reflecting the initial data in the equatorial plane reflects it; a run raises exactly when the moved run does. The same holds for user metrics with those symmetries, shifting any coordinate the metric does not mention shifts every row, (t, phi) reversal maps trajectories of stationary axisymmetric circular metrics to each other, and for every metric reversing the momentum and the step traverses the same positions.",
"all initial data, angles, spins, charges, numbers of steps, step sizes, orders and coupling constants, timelike and null",
"an equality of whole trajectories for every starting point and every angle",
S+"geodesic/geodesic.py:Geodesic",S+"geodesic/geodesic.py:Geodesic.calculate_trajectory",S+"integrators/fantasy.py:GeodesicIntegrator.step",S+"geodesic/utils.py:_kerr",S+"geodesic/utils.py:_kerrnewman",S+"geodesic/utils.py:_sch")
p("Momenta of cyclic coordinates are kept along computed rows",
"If the metric does not mention coordinate k (energy for k = t, axial angular momentum for k = phi), p_k is constant along every exact geodesic, and every row of the trajectory computed with N steps of size T/N has p_k within C (T/N)^2 of its initial value (C (T/N)^4 with order 4), with C independent of N and of the row, for all large N.",
"all metric programs, cyclic coordinates, geodesics, intervals, coupling constants and all sufficiently large numbers of steps",
"a drift bound over unboundedly many rows and all step counts",
S+"geodesic/geodesic.py:Geodesic.calculate_trajectory",S+"integrators/fantasy.py:GeodesicIntegrator.step")
p("Equatorial orbits stay equatorial, radial orbits stay radial",
"A Geodesic around a built-in black hole whose initial position lies in the equatorial plane and whose initial polar momentum is zero has every row in the equatorial plane (theta = pi/2, or z = 0 in Cartesian output) with zero polar momentum; a Geodesic in Schwarzschild without initial angular momentum has every row on the same ray from the centre. In particular the 5500 rows of examples.precession() lie in the plane z = 0.",
"all spins, charges, initial data in the plane or along the ray, orders, coupling constants, step sizes and numbers of steps, timelike and null",
"an invariant of every row of every run",
S+"geodesic/geodesic.py:Geodesic",S+"geodesic/geodesic.py:Geodesic.calculate_trajectory",S+"integrators/fantasy.py:GeodesicIntegrator.step",S+"examples.py:precession")
p("Circular orbits and light rays of the built-in black holes",
"Timelike (Nulllike) Geodesics released in the equatorial plane of a Schwarzschild, Kerr or Kerr-Newman hole with the azimuthal momentum of the circular orbit (photon orbit) at their radius exist for all large numbers of steps N, get the circular orbit's energy as p_t, and every row is within C (T/N)^2 (order 4: C (T/N)^4) of the exact circle, prograde or retrograde; Schwarzschild has such an orbit at every r > 3 with angular momentum r/sqrt(r-3), and the photon sphere at r = 3. Outgoing radial light in Schwarzschild follows r = r0 + lambda and t = lambda + 2 ln((r-2)/(r0-2)) with the same error bounds.",
"all spins, charges, radii, parameter intervals, orders, coupling constants and all sufficiently large numbers of steps",
"a limit over step counts for a family of orbits with three real parameters",
S+"geodesic/geodesic.py:Geodesic.calculate_trajectory",S+"geodesic/geodesic.py:Timelike",S+"geodesic/geodesic.py:Nulllike",S+"geodesic/utils.py:_P",S+"geodesic/utils.py:_kerrnewman")
p("Without spin, Kerr and Kerr-Newman are Schwarzschild",
"Kerr and KerrNewman metric objects with a = 0 and the mass of a Schwarzschild object have the same metric_covariant (and are undefined at the same points), the same christoffels (defined at the same points), the same f_vec on every position and velocity of an uncharged particle, and, without charge, the same singularities.",
"every mass, position, velocity and values of the physical constants",INF,
S+"metric/schwarzschild.py:Schwarzschild",S+"metric/kerr.py:Kerr",S+"metric/kerrnewman.py:KerrNewman",S+"metric/base_metric.py:BaseMetric.singularities")
p("Kerr and Kerr-Newman agree on uncharged particles",
"A Kerr object and a KerrNewman object of the same mass and spin have the same metric, and their f_vec gives the same motion to an uncharged test particle.",
"every mass, spin, position and velocity",INF,
S+"metric/kerr.py:Kerr.f_vec",S+"metric/kerrnewman.py:KerrNewman.f_vec",S+"metric/kerr.py:Kerr._dg_dx_bl")
p("TransformationMatrix.from_new2old is the inverse Jacobian",
"TransformationMatrix.from_new2old(old_coords, new_coords, new2old) returns the matrix of partial derivatives of the new coordinates by the old ones, i.e. the inverse of the matrix of partial derivatives of new2old by new_coords; TransformationMatrix refuses arrays whose rank is not 2 with ValueError.",
"every number of coordinates and every list of expressions new2old",INF,
S+"symbolic/helpers.py:TransformationMatrix.from_new2old",S+"symbolic/helpers.py:TransformationMatrix.__new__",S+"symbolic/helpers.py:TransformationMatrix.from_old2new")
p("General covariance of the curvature classes",
"If the metric of one MetricTensor is that of another one written in new coordinates (g'_ab = dX_i/dx'_a dX_j/dx'_b g_ij), then RiemannCurvatureTensor, RicciTensor, EinsteinTensor, SchoutenTensor and WeylTensor of the two metrics, in every index configuration reached by change_config, are related by the tensor transformation law, RicciScalar is the same function of the point, and ChristoffelSymbols obey the inhomogeneous law of a connection. MinkowskiPolar is MinkowskiCartesian in spherical coordinates.",
"every dimension, symmetric invertible metric, change of coordinates with invertible Jacobian and index configuration",INF,
S+"symbolic/riemann.py:RiemannCurvatureTensor.from_metric",S+"symbolic/ricci.py:RicciTensor.from_metric",S+"symbolic/ricci.py:RicciScalar.from_metric",S+"symbolic/einstein.py:EinsteinTensor.from_metric",S+"symbolic/schouten.py:SchoutenTensor.from_metric",S+"symbolic/weyl.py:WeylTensor.from_metric",S+"symbolic/christoffel.py:ChristoffelSymbols.from_metric",S+"symbolic/predefined/minkowski.py:MinkowskiPolar")
p("Conformal invariance of the Weyl tensor",
"If the metric of one MetricTensor is f times that of another (f an invertible expression), WeylTensor.from_metric of both agree after change_config('ulll'), and in any index configuration differ by the factor f divided by f for every raised index; SchoutenTensor changes by the second derivatives of log f. A constant f (a change of units) leaves ChristoffelSymbols, RiemannCurvatureTensor, RicciTensor and EinsteinTensor unchanged and divides RicciScalar by f.",
"every dimension (at least 4 for Weyl, 3 for Schouten), symmetric invertible metric, conformal factor and index configuration",INF,
S+"symbolic/weyl.py:WeylTensor.from_metric",S+"symbolic/weyl.py:WeylTensor.change_config",S+"symbolic/schouten.py:SchoutenTensor.from_metric",S+"symbolic/ricci.py:RicciScalar.from_metric",S+"symbolic/einstein.py:EinsteinTensor.from_metric")
p("Geodesic and the metric classes' f_vec describe the same motion",
"A curve (q, p) obeys Hamilton's equations integrated by Geodesic (metric 'Schwarzschild' or 'Kerr', units G = c = M = 1) exactly when its position and velocity in SI units obey the equations of motion f_vec of the Schwarzschild, Kerr or (for an uncharged particle) KerrNewman object of that mass and spin; and for every motion obeying f_vec on [0, T] there are initial conditions for which the rows of Geodesic.calculate_trajectory with N steps of T/N, in SI units, are within C (T/N)^2 (order 4: C (T/N)^4) of it.",
"every mass, spin, curve, parameter interval, order, coupling constant, values of the physical constants and all sufficiently large numbers of steps",
"an equivalence of differential equations along every curve and a limit over step counts",
S+"geodesic/geodesic.py:Geodesic.calculate_trajectory",S+"metric/schwarzschild.py:Schwarzschild._f_vec_s",S+"metric/kerrnewman.py:KerrNewman._f_vec_bl",S+"metric/kerr.py:Kerr._f_vec_bl",S+"integrators/fantasy.py:GeodesicIntegrator.step")
p("RK4naive on f_vec converges to the motion and agrees with Geodesic",
"RK4naive started on the f_vec of a Schwarzschild or KerrNewman object (uncharged particle) with step T/N has after k steps parameter k T/N and a position and velocity within C (T/N)^4 of the motion obeying f_vec, forwards or backwards; and the positions in the rows of Geodesic.calculate_trajectory, in SI units, agree with RK4naive's within C (T/N)^2 (order 4: C (T/N)^4).",
"every mass, spin, motion defined on the interval, interval length, order, coupling constant and all sufficiently large numbers of steps",
"a limit over step counts for a family of nonlinear differential equations",
S+"integrators/runge_kutta.py:RK4naive.step",S+"metric/schwarzschild.py:Schwarzschild._f_vec_s",S+"metric/kerrnewman.py:KerrNewman._f_vec_bl",S+"geodesic/geodesic.py:Geodesic.calculate_trajectory")
p("The initial value problems solved have exactly one solution, and the solvers find it",
"For every initial position where the metric evaluates without error and every initial momentum there is T > 0 such that exactly one geodesic starts there on [0, T], and for every U in (0, T] the rows of Geodesic.calculate_trajectory with N steps of U/N are within C (U/N)^2 (order 4: C (U/N)^4) of it. Likewise for every system y' = f(t, y) whose right-hand side is a program of arithmetic and elementary functions defined at (t0, y0): there is exactly one solution around t0 and RK4naive is within C (U/N)^4 of it. Wherever f_vec of a Schwarzschild or KerrNewman object (uncharged particle) returns a value, a motion obeying f_vec starts, and it is the only one.",
"every symmetric metric program, every right-hand side program, every initial condition, order, coupling constant, and all sufficiently large numbers of steps",
"existence and uniqueness of solutions of differential equations for all initial data",
S+"geodesic/geodesic.py:Geodesic.calculate_trajectory",S+"integrators/fantasy.py:GeodesicIntegrator.step",S+"integrators/runge_kutta.py:RK4naive.step",S+"metric/schwarzschild.py:Schwarzschild._f_vec_s",S+"metric/kerrnewman.py:KerrNewman._f_vec_bl")
p("Symbolic, numeric and geodesic descriptions of the black holes agree",
"Evaluated at the same values of the constants, mass, spin and coordinates, metric_covariant of the Schwarzschild, Kerr and KerrNewman classes is c^2 times the symbolic predefined metric of the same name, and their numeric Christoffel symbols are those ChristoffelSymbols.from_metric computes from the symbolic metric; the metric functions used by Geodesic are, in units G = c = M = 1, minus the inverse of the symbolic predefined metrics.",
"every point where the symbolic metric is defined, every mass, spin, charge and value of the constants, every correct simplifier and matrix inverter",INF,
S+"symbolic/predefined/vacuum_solutions.py:Schwarzschild",S+"symbolic/predefined/vacuum_solutions.py:Kerr",S+"symbolic/predefined/vacuum_solutions.py:KerrNewman",S+"metric/schwarzschild.py:Schwarzschild",S+"metric/kerr.py:Kerr",S+"metric/kerrnewman.py:KerrNewman",S+"geodesic/utils.py:_kerrnewman",S+"symbolic/christoffel.py:ChristoffelSymbols.from_metric")
p("Rounding errors of Geodesic",
"For each named black hole, starting point outside its horizon and initial momentum of a massive particle (or non-zero momentum of a photon) there are T, K and r such that Geodesic, computed in floating point of unit roundoff u with step h (h <= r, u/h <= r, total length at most T), raises no error and every row is within K (h^n + u/h) of the true motion (n = 2, or 4 for order 4), the initial 4-momentum within K u. For any metric callable, initial data and settings for which Geodesic succeeds in exact arithmetic, it succeeds in floating point of small enough u and every entry of the returned array is within C u of the exact one. Every IEEE format with correctly rounded operations and elementary functions accurate to 4 ulp is such an arithmetic, with u = 2^(4-p) for precision p.",
"every metric callable, parameters, initial data, order, coupling constant, number of steps, step size and every arithmetic of sufficiently small unit roundoff",
"a statement about every rounding behaviour and about limits in the step size and the precision",
S+"geodesic/geodesic.py:Geodesic",S+"geodesic/geodesic.py:Geodesic.calculate_trajectory",S+"integrators/fantasy.py:GeodesicIntegrator.step",S+"integrators/utils.py:_flow_mixed",S+"geodesic/utils.py:_P",S+"utils/dual.py:DualNumber")
p("Rounding errors of automatic differentiation and of the metrics",
"Evaluating a program of arithmetic and elementary functions in floating point of unit roundoff u, at inputs within u of a point where it is defined, gives a value within C u of the exact one; run on DualNumbers it also gives a derivative within C u of the true partial derivative, with C and the admissible u depending only on the program and the point. Hence the metric callables, _jacobian_g (against the true partial derivatives of the metric) and _P (where the number under its square root is positive) are within C u of the exact values.",
"every program, point of its domain, perturbation of the input and every arithmetic of sufficiently small unit roundoff",
"a statement about every rounding behaviour",
S+"utils/dual.py:DualNumber",S+"utils/dual.py:_jacobian_g",S+"geodesic/utils.py:_P",S+"geodesic/utils.py:_kerrnewman",S+"geodesic/utils.py:_kerr",S+"geodesic/utils.py:_sch")
p("RK4naive in floating point: time and solution within K (e0 + |h|^4 + u/|h|), and within C u of the exact run",
  "Run on floats instead of real numbers, RK4naive still works: with an arithmetic of unit roundoff u (every IEEE format has u = 2^(4-p)), a right-hand side computed by an arithmetic program, and inputs t0, y0 known to within e0, all k steps of size h (forwards or backwards) succeed while h, e0 and u/|h| are small, and afterwards t differs from t0 + k h, and every component of y from the true solution at that time, by at most K (e0 + |h|^4 + u/|h|), K independent of h, the number of steps and the arithmetic. For a fixed run, the floats stay within C u of the exact run; on exact arithmetic they coincide; the array keeps its length.",
  "every system of n programs, every solution on an interval, every step size, number of steps, initial error and accurate arithmetic, every IEEE format and libm accurate to 4 ulp", INF+"; a test runs one right-hand side in one precision",
  S+"integrators/runge_kutta.py:RK4naive.__init__", S+"integrators/runge_kutta.py:RK4naive.step")

p("Computed orbits keep the constants of motion of their black hole",
  "Around each built-in black hole (Schwarzschild, Kerr, Kerr-Newman) the rows returned by Geodesic, computed with step h in arithmetic with unit roundoff u, keep the energy -p_t, the axial angular momentum p_phi, the squared mass g^ij p_i p_j and Carter's constant p_theta^2 + (a sin(theta) p_t + p_phi/sin(theta))^2 - a^2 cos^2(theta) g^ij p_i p_j of the initial data up to K (h^n + u/h), n = 2 (4 for order 4). Without spin they keep the whole angular momentum vector and the orbit stays in the plane perpendicular to it, for any inclination. More generally any constant of the motion of any metric that a program computes from position and momentum is kept to that accuracy.",
  "All built-in black holes, parameters, exterior initial points, momenta of massive particles and light, orders, step sizes and step counts, and all arithmetics of bounded relative error.",
  INF, S+"geodesic/geodesic.py:Geodesic", S+"geodesic/utils.py:_kerr", S+"geodesic/utils.py:_kerrnewman", S+"geodesic/utils.py:_sch", S+"integrators/fantasy.py:GeodesicIntegrator")

p("The coordinate conversions in floating point",
  "Run on floats, the conversions between Cartesian, spherical and Boyer-Lindquist coordinates (positions and velocities) give every component within C u of the exact conversion, for every arithmetic of small enough unit roundoff u and inputs known to within K u, C depending only on K and the point; the azimuth is compared up to a full turn where the point lies on the cut of arctan2. Converting there and back in floating point gives the original position and velocity within C u. Every IEEE format with a libm accurate to 4 ulp is such an arithmetic.",
  "every point off the coordinate singularities, velocity, spin parameter, perturbation of the inputs and accurate arithmetic", "a statement about every rounding behaviour at every point",
  S+"coordinates/utils.py:cartesian_to_spherical", S+"coordinates/utils.py:cartesian_to_bl", S+"coordinates/utils.py:spherical_to_cartesian", S+"coordinates/utils.py:bl_to_cartesian",S+"coordinates/utils.py:cartesian_to_spherical_novel", S+"coordinates/utils.py:cartesian_to_bl_novel", S+"coordinates/utils.py:spherical_to_cartesian_novel", S+"coordinates/utils.py:bl_to_cartesian_novel")
p("cartesian_to_bl gives numbers on the rotation axis",
  "cartesian_to_bl returns a number (not nan) for theta at every point x = y = 0, z <> 0 of the rotation axis, in binary64 arithmetic.",
  "every z and alpha", INF, S+"coordinates/utils.py:cartesian_to_bl", S+"coordinates/utils.py:cartesian_to_bl_novel")

p("The numeric metric classes in floating point",
  "Run on floats, metric_covariant, metric_contravariant, christoffels and f_vec of Schwarzschild, Kerr and KerrNewman, and the electromagnetic tensor of KerrNewman, succeed wherever the same methods in exact arithmetic return a value, and every entry is within C u of the exact one, for every arithmetic of small enough unit roundoff u, numpy.linalg.inv being LAPACK's elimination in the same arithmetic (or any other inverse with the error bound of Gaussian elimination), and inputs known to within K u; C depends only on K, the object and the point. The equator, where the code divides by an infinite tangent, is included.",
  "every metric object, values of the constants, position, velocity, perturbation of the inputs, accurate arithmetic and inverse", "a statement about every rounding behaviour at every point",
  S+"metric/schwarzschild.py:Schwarzschild.metric_covariant", S+"metric/schwarzschild.py:Schwarzschild._ch_sym_s", S+"metric/schwarzschild.py:Schwarzschild._f_vec_s", S+"metric/kerr.py:Kerr._g_cov_bl", S+"metric/kerr.py:Kerr._ch_sym_bl", S+"metric/kerr.py:Kerr._f_vec_bl", S+"metric/kerrnewman.py:KerrNewman._g_cov_bl", S+"metric/kerrnewman.py:KerrNewman._ch_sym_bl", S+"metric/kerrnewman.py:KerrNewman._f_vec_bl", S+"metric/kerrnewman.py:KerrNewman.em_tensor_covariant", S+"metric/base_metric.py:BaseMetric.metric_contravariant")
p("RK4naive on the numeric metric classes in floating point",
  "RK4naive given the f_vec of a Schwarzschild, Kerr or KerrNewman object (charged particles included) and run on floats of unit roundoff u with step h follows the motion: if X, W is a motion on an interval, all steps inside the interval succeed and position, velocity and time are within C (e0 + |h|^4 + u/|h|) of those of the motion, e0 being the error of the initial data; C does not depend on the arithmetic, the step or the number of steps.",
  "every metric object, motion, interval, step size, number of steps, initial error, accurate arithmetic and inverse", "a statement about every rounding behaviour and about limits in the step size and the precision",
  S+"integrators/runge_kutta.py:RK4naive.__init__", S+"integrators/runge_kutta.py:RK4naive.step", S+"metric/schwarzschild.py:Schwarzschild._f_vec_s", S+"metric/kerr.py:Kerr._f_vec_bl", S+"metric/kerrnewman.py:KerrNewman._f_vec_bl")
p("Kerr.f_vec and KerrNewman.f_vec (with charge) define exactly one motion from every start, and RK4naive converges to it",
  "Wherever f_vec of a Kerr object, or of a KerrNewman object with any charges, returns a value, there is a motion with that initial position and velocity, on any interval there is at most one, and RK4naive with N steps differs from it by at most C/N^4.",
  "every metric object, initial position and velocity, interval and number of steps", "existence and uniqueness of solutions of differential equations for all initial data",
  S+"metric/kerr.py:Kerr._f_vec_bl", S+"metric/kerrnewman.py:KerrNewman._f_vec_bl", S+"integrators/runge_kutta.py:RK4naive.step")

p("The 4-velocity in floating point",
  "position() and velocity(metric) of coordinates in SI units, run on floats, give the position (c t, x1, x2, x3) and the 4-velocity within C u, whenever the metric exists there, g_tt > 0 and the spatial velocity is below the speed of light: the time component returned is within C u of the future-directed root that makes the norm of the 4-velocity c^2; u is the unit roundoff and the inputs are known to within K u.",
  "every metric object of the three classes, position, 3-velocity, perturbation of the inputs, accurate arithmetic", "a statement about every rounding behaviour at every point",
  S+"coordinates/differential.py:SphericalDifferential.velocity", S+"coordinates/differential.py:BoyerLindquistDifferential.velocity", S+"coordinates/differential.py:SphericalDifferential.position", S+"coordinates/differential.py:BoyerLindquistDifferential.position", S+"coordinates/utils.py:v0")
p("From coordinates to trajectory in floating point",
  "Starting from SI coordinates (position and 3-velocity known to within K u), computing the 4-velocity with velocity(metric) and then taking N steps of size h of RK4naive on the metric's f_vec, all in arithmetic of unit roundoff u, follows the motion of the metric that starts at that position with the future-directed 4-velocity of norm c^2: such a motion exists, and as long as N h stays inside its interval no step fails and every state is within C (h^4 + u/h) of it.",
  "every Schwarzschild, Kerr and KerrNewman object (charged particles included), position outside the coordinate singularities with g_tt > 0, subluminal 3-velocity, step size, number of steps, perturbation of the inputs, accurate arithmetic and inverse", "a statement about every rounding behaviour and about limits in the step size and the precision",
  S+"coordinates/differential.py:SphericalDifferential.velocity", S+"coordinates/differential.py:BoyerLindquistDifferential.velocity", S+"coordinates/utils.py:v0", S+"integrators/runge_kutta.py:RK4naive.step", S+"metric/schwarzschild.py:Schwarzschild._f_vec_s", S+"metric/kerr.py:Kerr._f_vec_bl", S+"metric/kerrnewman.py:KerrNewman._f_vec_bl")
p("Constants of motion along the trajectories of the numeric metric classes in floating point",
  "Along the trajectory of the preceding property the metric norm of the computed velocity stays within C (h^4 + u/h) of c^2, and the energy and axial angular momentum within C (h^4 + u/h) of their initial values, for Schwarzschild and for KerrNewman with an uncharged particle; for the Kerr class the energy does.",
  "every metric object, start, step size, number of steps, perturbation of the inputs, accurate arithmetic and inverse", "a statement about every rounding behaviour and about limits in the step size and the precision",
  S+"coordinates/differential.py:SphericalDifferential.velocity", S+"integrators/runge_kutta.py:RK4naive.step", S+"metric/schwarzschild.py:Schwarzschild._f_vec_s", S+"metric/kerr.py:Kerr._f_vec_bl", S+"metric/kerrnewman.py:KerrNewman._f_vec_bl")

p("From Cartesian coordinates to trajectory in floating point",
  "Starting from the Cartesian position and velocity of a body in SI units (known to within K u), converting them to the coordinates of the metric (spherical for Schwarzschild, Boyer-Lindquist for Kerr and KerrNewman), computing the 4-velocity with velocity(metric) and taking N steps of size h of RK4naive on the metric's f_vec, all in arithmetic of unit roundoff u, follows the motion of the metric that starts at the exactly converted position with the future-directed 4-velocity of norm c^2: such a motion exists, and as long as N h stays inside its interval nothing fails and every state is within C (h^4 + u/h) of it.",
  "every Schwarzschild, Kerr and KerrNewman object (charged particles included), Cartesian position off the z axis (off the plane x = 0 for the last two) and off the half plane where the azimuth jumps, subluminal velocity, step size, number of steps, perturbation of the inputs, accurate arithmetic and inverse", "a statement about every rounding behaviour and about limits in the step size and the precision",
  S+"coordinates/differential.py:CartesianDifferential.spherical_differential", S+"coordinates/differential.py:CartesianDifferential.bl_differential", S+"coordinates/conversion.py:CartesianConversion", S+"coordinates/utils.py:cartesian_to_spherical", S+"coordinates/utils.py:cartesian_to_bl", S+"coordinates/utils.py:v0", S+"integrators/runge_kutta.py:RK4naive.step", S+"metric/kerrnewman.py:KerrNewman._f_vec_bl")

p("Geodesic with Cartesian output in floating point",
  "With return_cartesian=True (the default) the rows computed by Geodesic and calculate_trajectory in arithmetic of unit roundoff u with step h are, for every step taken inside the interval of the motion, within K (h^n + u/h) of the Cartesian image of the motion (positions) and of its momenta; n is the order of the integrator (C87). In any arithmetic the two modes differ only by converting the positions.",
  "every named black hole and metric callable, start outside the horizon, momentum, interval, step size, number of steps, accurate arithmetic", "a statement about every rounding behaviour and about limits in the step size and the precision",
  S+"geodesic/geodesic.py:Geodesic.__init__", S+"geodesic/geodesic.py:Geodesic.calculate_trajectory")
p("From Cartesian coordinates to a Cartesian trajectory in floating point",
  "Converting a Cartesian position and velocity (known to within K u) to the coordinates of the metric, taking k steps of size h of RK4naive on the metric's f_vec from the 4-velocity of velocity(metric), and converting the position and spatial velocity reached back to Cartesian coordinates, all in arithmetic of unit roundoff u, stays within C (h^4 + u/h) of a curve in Cartesian coordinates and of its velocity: the curve is the image of the metric's motion, starts at (c t, x, y, z) and its velocity starts at the given velocity. This includes starts on the half plane where the azimuth jumps.",
  "every Schwarzschild, Kerr and KerrNewman object (charged particles included), Cartesian position off the z axis (off the plane x = 0 for the last two), subluminal velocity, step size, number of steps, perturbation of the inputs, accurate arithmetic and inverse", "a statement about every rounding behaviour and about limits in the step size and the precision",
  S+"coordinates/conversion.py:SphericalConversion.convert_cartesian", S+"coordinates/conversion.py:BoyerLindquistConversion.convert_cartesian", S+"coordinates/utils.py:spherical_to_cartesian", S+"coordinates/utils.py:bl_to_cartesian", S+"coordinates/utils.py:cartesian_to_bl", S+"coordinates/utils.py:v0", S+"integrators/runge_kutta.py:RK4naive.step")

p("The matrix inverse in floating point",
  "numpy.linalg.inv as metric_contravariant uses it (Gaussian elimination with partial pivoting) inverts every invertible matrix in floating point: for every invertible matrix there is a neighbourhood and a constant C such that for every matrix in it and every arithmetic of small enough unit roundoff u the elimination succeeds and every entry is within C u of that of the inverse. In exact arithmetic it returns the inverse and raises LinAlgError exactly when there is none. The same holds for any number of equations and right-hand sides.",
  "every invertible matrix, every matrix near it, every accurate arithmetic; every size of system", "a statement about every rounding behaviour at every matrix",
  S+"metric/base_metric.py:BaseMetric.metric_contravariant")

p("Chains of coordinate conversions are path independent",
  "Converting a coordinate object or a differential through any chain of to_cartesian/to_spherical/to_bl (or *_differential) calls with the same M and a never fails off the singular sets, every object on the way stands for the same event (and the same velocity), with radius and angles in range, and two chains from objects of the same event that end in the same system return the same object; a chain back to the starting system returns the starting values.",
  "every chain of conversions of any length, every starting system, event, velocity, M and 0 <= a <= 1, off the rotation axis for velocities and off the disc of radius alpha (and the plane x = 0 with velocities) when a Boyer-Lindquist object occurs", "histories of conversions of unbounded length over all events",
  S+"coordinates/core.py:Cartesian.to_spherical", S+"coordinates/core.py:Cartesian.to_bl", S+"coordinates/core.py:Spherical.to_bl", S+"coordinates/core.py:BoyerLindquist.to_spherical", S+"coordinates/differential.py:CartesianDifferential.spherical_differential", S+"coordinates/differential.py:CartesianDifferential.bl_differential", S+"coordinates/differential.py:SphericalDifferential.bl_differential", S+"coordinates/differential.py:BoyerLindquistDifferential.spherical_differential", S+"coordinates/conversion.py:SphericalConversion.convert_bl", S+"coordinates/conversion.py:BoyerLindquistConversion.convert_spherical", S+"coordinates/conversion.py:CartesianConversion.convert_bl")

p("Carter's constant and the angular momentum vector of the metric classes",
  "Along a motion described by KerrNewman.f_vec of an uncharged particle around a hole of nonzero mass, Carter's quantity v_theta^2 + (alpha sin(theta) v_t / c + v_phi / sin(theta))^2 + alpha^2 cos(theta)^2 g(v, v) is constant; without spin (and for Schwarzschild.f_vec) the whole angular momentum vector is constant, so the orbit stays in a plane through the centre. Computed through velocity(metric) and RK4naive in arithmetic of unit roundoff u with step h they stay within C (h^4 + u/h) of their initial values.",
  "every mass, spin 0 <= a <= 1, hole charge, position outside the coordinate singularities, subluminal 3-velocity, interval on which the motion exists, arithmetic, step size and number of steps", "a statement about all orbits and all step counts; tests look at one orbit",
  S+"metric/kerrnewman.py:KerrNewman.f_vec", S+"metric/schwarzschild.py:Schwarzschild.f_vec", S+"metric/base_metric.py:BaseMetric.alpha", S+"coordinates/differential.py:BoyerLindquistDifferential.velocity", S+"integrators/runge_kutta.py:RK4naive")

p("Orbits behind a potential barrier exist for every parameter value and are what the integrators compute",
  "A test body or light ray released off the axis outside a Schwarzschild, Kerr or Kerr-Newman hole, with nonzero axial angular momentum, with a radius between it and the horizon at which the radial potential of its conserved quantities is negative, has a trajectory over every parameter interval [0, T]: it never reaches that radius. So Geodesic(..) with any number of steps and any final parameter value approximates an existing orbit: for small enough steps h and unit roundoff u all rows are within K (h^n + u/h) of it and stay outside the barrier up to that error; the same holds for RK4naive on Schwarzschild.f_vec and KerrNewman.f_vec (uncharged particle) in SI units. No motion passes a radius with negative radial potential from either side.",
  "every spin, charge and mass, initial position, momentum or velocity with such a barrier, every interval length, integrator order, step size, number of steps, accurate arithmetic", "existence for all parameter values and a bound for all step counts; tests integrate one orbit for some steps",
  S+"geodesic/geodesic.py:Geodesic.__init__", S+"geodesic/geodesic.py:Geodesic.calculate_trajectory", S+"integrators/fantasy.py:GeodesicIntegrator.step", S+"metric/schwarzschild.py:Schwarzschild.f_vec", S+"metric/kerrnewman.py:KerrNewman.f_vec", S+"integrators/runge_kutta.py:RK4naive")

p("Chains of coordinate conversions in floating point",
"Consider any chain of conversions between Cartesian, spherical and Boyer-Lindquist objects, run in a floating-point arithmetic of unit roundoff u, on inputs within K u of the exact ones, with the spin length computed by BaseMetric.alpha in the same arithmetic. For an event off the z axis (off the x = 0 plane for velocities in Boyer-Lindquist coordinates) and, if the chain visits Boyer-Lindquist coordinates, off the disc of radius alpha, there are r > 0 and C such that for every u < r the chain succeeds and its position and velocity are within C u of those of the object the exact chain returns, the azimuth up to a full turn (without that allowance off the half-plane y = 0, x <= 0). In particular a closed chain returns to within C u of its start.",
"every finite chain, event, velocity, hole, arithmetic of small enough unit roundoff and rounding of the inputs",
"tests convert a few points once and compare with loose tolerances; chains are unbounded and errors accumulate",
S+"coordinates/conversion.py:CartesianConversion", S+"coordinates/conversion.py:SphericalConversion", S+"coordinates/conversion.py:BoyerLindquistConversion", S+"coordinates/utils.py", S+"metric/base_metric.py:BaseMetric.alpha", S+"coordinates/core.py", S+"coordinates/differential.py")

p("Symbolic constants keep their identity and description",
"get_constant returns, for each of its four names, the module's constant with its name, whatever was constructed before, and raises KeyError for any other name. SymbolicConstant(name, description, **assumptions) returns a symbol of that name, assumptions and description; symbols of one name and the same assumptions are equal, symbols of different names are not. A constant, once handed out, keeps the descriptive_name it was made with.",
"every history of constructions and of losses of entries of sympy's symbol cache",
"tests read one description right after import; the property is about what later constructions do to objects already handed out",
S+"symbolic/constants.py:SymbolicConstant", S+"symbolic/constants.py:get_constant")

p("Which bodies are captured, escape, fly by or stay bound, and that the integrators compute it",
"A test body or light ray released off the axis outside a Schwarzschild, Kerr or Kerr-Newman hole with nonzero axial angular momentum can be followed to any final parameter value or until it reaches a given radius outside the horizon. If it moves inwards and its radial potential has no root down to that radius it falls to it, ever inwards. If it moves outwards, with no root ahead and energy above its rest energy, it exists for ever and recedes at least linearly. If it moves inwards towards a simple root beyond which the potential is positive, it reaches exactly that radius, and then recedes for ever. If its energy is below its rest energy and there is a barrier inside, it stays between two radii for ever. In each case the rows of Geodesic(..) (any order), and of RK4naive on Schwarzschild.f_vec and KerrNewman.f_vec (uncharged particle, SI units, 4-velocity from velocity(metric)), are within K (h^n + u/h) of that orbit, for small enough step h and unit roundoff u, as far as it was said to exist.",
"every spin, charge and mass, initial position, momentum or velocity of each kind, interval length, integrator order, step size, number of steps, accurate arithmetic",
"statements about what happens for all parameter values; a test integrates for some steps",
S+"geodesic/geodesic.py:Geodesic.__init__", S+"geodesic/geodesic.py:Geodesic.calculate_trajectory", S+"integrators/fantasy.py:GeodesicIntegrator.step", S+"metric/schwarzschild.py:Schwarzschild.f_vec", S+"metric/kerrnewman.py:KerrNewman.f_vec", S+"integrators/runge_kutta.py:RK4naive", S+"coordinates/utils.py:v0")

p("The fractal figure and its slider","For every pair of angles and every number of steps n >= 1, fractal builds a figure of n heatmaps, the k-th being the image of the k-th of n angles evenly spaced from start to end, and an n-position slider standing at the last. Before the slider is moved every heatmap is visible and the last lies on top; after any sequence of moves exactly the heatmap at the slider's position is visible and no image has changed. divs = 0 raises IndexError and divs < 0 ValueError.","all angles, numbers of steps, image sizes, iteration limits and histories of slider moves","Unbounded histories of user moves; images of any size.",S+"plotting/fractal.py:fractal",S+"plotting/fractal.py:_fractal_img")
p("One orbit for all parameter values, and its fate","A body released outside a named black hole (Schwarzschild, Kerr, Kerr-Newman), or started in the SI classes (uncharged KerrNewman, Schwarzschild), behind a potential barrier, or outwards with nothing to turn it back and energy above its rest energy, has exactly one orbit defined for every parameter value t >= 0. On it: r stays beyond the barrier; an outgoing body recedes beyond every radius; an ingoing one reaches the turning point at one finite t and then recedes beyond every radius; a body of energy below its rest energy stays between two radii for ever. Over every interval [0, T] the computed rows are within K (h^n + u/h) of that one orbit in every arithmetic of unit roundoff u; so for every eps a small enough step and an IEEE format of enough bits give rows within eps.","all parameters of the metrics, initial data, orders, step sizes, intervals and arithmetics","An orbit for all t is not reachable by any run; the claim is about all of them.",S+"geodesic/geodesic.py:Geodesic",S+"integrators/fantasy.py:GeodesicIntegrator",S+"metric/base_metric.py:BaseMetric.f_vec",S+"integrators/runge_kutta.py:RK4naive.step")

if __name__=="__main__":
    with open("/verif/properties.jsonl","w") as f:
        for x in P: f.write(json.dumps(x)+"\n")
    print(len(P))
    for x in P: print(x["id"],x["title"])
