{
 "C01": [
  "DualNumber operators with Python dispatch between float and DualNumber; programs as an AST interpreted through that dispatch",
  "induction on the AST against Coquelicot `is_derive`"
 ],
 "C02": [
  "the `0/0` branch of `__truediv__`",
  "limit proved; derivative refuted by witness"
 ],
 "C03": [
  "dual operators",
  "field identities over all duals"
 ],
 "C04": [
  "`_jacobian_g` over metric programs",
  "corollary of C01 per component"
 ],
 "C05": [
  "`_sch`, `_kerr`, `_kerrnewman` as programs",
  "explicit covariant line elements as spec; matrix product = identity by `field`"
 ],
 "C06": [
  "`_P`",
  "root of the quadratic"
 ],
 "C07": [
  "`_P` with an arbitrary metric",
  "exact defect; refuted"
 ],
 "C08": [
  "`_flow_mixed`",
  "linear algebra, ODE of the coupling Hamiltonian"
 ],
 "C09": [
  "`_flow_A`, `_flow_B`",
  "`is_derive` of the flows against Hamilton's equations"
 ],
 "C10": [
  "`_ord_2.._ord_8`",
  "palindromic compositions, induction"
 ],
 "C11": [
  "steps on a metric without one coordinate",
  "induction over stages and steps"
 ],
 "C12": [
  "`_Z`",
  "real powers"
 ],
 "C13": [
  "substep weight lists",
  "refuted for orders 6/8, explicit metric witness"
 ],
 "C14": [
  "`GeodesicIntegrator.step` state machine",
  "induction over step sequences"
 ],
 "C15": [
  "`Geodesic.__init__`, `calculate_trajectory`",
  "induction over the loop"
 ],
 "C16": [
  "`RK4naive.step`",
  "algebra"
 ],
 "C17": [
  "`RK4naive` stop test",
  "refuted; characterisation"
 ],
 "C18": [
  "`RK45` wrapper, solver as oracle",
  "case analysis for every oracle"
 ],
 "C19": [
  "`cartesian_to_spherical`",
  "trigonometry with explicit `atan2`"
 ],
 "C20": [
  "`spherical_to_cartesian`",
  "same"
 ],
 "C21": [
  "velocity maps",
  "Coquelicot derivative along curves"
 ],
 "C22": [
  "`cartesian_to_bl`, `bl_to_cartesian`",
  "algebra with square roots"
 ],
 "C23": [
  "BL velocity maps",
  "derivative along curves"
 ],
 "C24": [
  "`v_phi` formula",
  "exact definedness; refuted"
 ],
 "C25": [
  "BL with a=0",
  "algebra"
 ],
 "C26": [
  "Conversion classes",
  "case analysis"
 ],
 "C27": [
  "Quantity as value/scale/dimension",
  "scaling argument"
 ],
 "C28": [
  "`schwarzschild_radius`, `alpha`",
  "refuted; characterised"
 ],
 "C29": [
  "`velocity`/`_v0` of differentials",
  "quadratic root"
 ],
 "C30": [
  "`__getitem__`, `position`",
  "case analysis"
 ],
 "C31": [
  "`lorentz_factor`",
  "algebra"
 ],
 "C32": [
  "`alpha`, `sigma`, `delta`, `rho` helpers",
  "algebra"
 ],
 "C33": [
  "`singularities`",
  "roots of the horizon/ergosphere equations"
 ],
 "C34": [
  "Schwarzschild `_christoffels`",
  "derivatives of the metric, Levi-Civita uniqueness formula"
 ],
 "C35": [
  "Kerr `_dg_dx`",
  "`is_derive` per entry; one refuted"
 ],
 "C36": [
  "Kerr-Newman `_dg_dx`",
  "`is_derive` per entry"
 ],
 "C37": [
  "Kerr-Newman `metric_covariant`",
  "refuted; equality with Kerr"
 ],
 "C38": [
  "sparse loops over Christoffel indices",
  "exhaustive finite index sweep lifted to all arguments"
 ],
 "C39": [
  "`_f_vec`",
  "unfolding to the geodesic equation"
 ],
 "C40": [
  "norm along solutions of `_f_vec`",
  "derivative of g(v,v) along the flow"
 ],
 "C41": [
  "`em_tensor_*`",
  "derivative of the potential per entry"
 ],
 "C42": [
  "charged `_f_vec`",
  "derivative of g(v,v)"
 ],
 "C43": [
  "`metric_contravariant`",
  "adjugate inverse"
 ],
 "C44": [
  "`ChristoffelSymbols.from_metric` loop",
  "any dimension, differential ring: torsion-free, metric, unique"
 ],
 "C45": [
  "`RiemannCurvatureTensor.from_metric/from_christoffels`",
  "formula and all symmetries, any dimension"
 ],
 "C46": [
  "`RicciTensor`, `RicciScalar`",
  "contractions, symmetry"
 ],
 "C47": [
  "`EinsteinTensor`",
  "contracted Bianchi identity in any dimension"
 ],
 "C48": [
  "`StressEnergyMomentumTensor`",
  "algebra"
 ],
 "C49": [
  "`WeylTensor`",
  "trace freeness and symmetries"
 ],
 "C50": [
  "`SchoutenTensor`",
  "Riemann = Weyl + Schouten decomposition"
 ],
 "C51": [
  "`_change_config`",
  "list induction over index positions"
 ],
 "C52": [
  "`tensor_product` with contraction",
  "multi-index sums"
 ],
 "C53": [
  "index arguments of `tensor_product`",
  "case analysis; refuted"
 ],
 "C54": [
  "`lorentz_transform`",
  "multi-index sums"
 ],
 "C55": [
  "same",
  "exact condition; refuted"
 ],
 "C56": [
  "`MetricTensor.inv/lower_config` heap",
  "invariant over every call history"
 ],
 "C57": [
  "`Tensor.__init__`, `BaseRelativityTensor`",
  "case analysis"
 ],
 "C58": [
  "`subs`",
  "refuted; characterised"
 ],
 "C59": [
  "`TransformationMatrix.inv`",
  "refuted; characterised"
 ],
 "C60": [
  "`simplify_sympy_array`",
  "list induction over shapes"
 ],
 "C61": [
  "Minkowski*, AntiDeSitter*",
  "curvature of the library's own constructors on expression trees"
 ],
 "C62": [
  "`Schwarzschild` (predefined)",
  "Ricci = 0 at every chart point"
 ],
 "C63": [
  "`DeSitter`",
  "Ricci computed exactly; refuted"
 ],
 "C64": [
  "limits of parameters",
  "entrywise equality; one refuted"
 ],
 "C65": [
  "`AlcubierreWarp`",
  "exact condition; refuted"
 ],
 "C66": [
  "`find`, `get_predefined...`",
  "list induction over any name list"
 ],
 "C67": [
  "`int(t / dims**k) % dims`",
  "Flocq error analysis"
 ],
 "C68": [
  "`scalar_factor`",
  "Coquelicot derivative"
 ],
 "C69": [
  "`SchwarzschildEmbedding` sampling",
  "loop induction"
 ],
 "C70": [
  "`gradient`",
  "algebra, refuted"
 ],
 "C71": [
  "`Shadow` arrays, `smoothen`",
  "list induction for any `newton`"
 ],
 "C72": [
  "`_draw_bh`",
  "algebra, refuted"
 ],
 "C73": [
  "plotters' checks and curves",
  "effects on the figure as lists of artists"
 ],
 "C74": [
  "`fractal`",
  "Coquelicot complex numbers, loop induction"
 ],
 "C75": [
  "`primitive`",
  "list induction"
 ],
 "C76": [
  "exception classes",
  "string lemmas"
 ],
 "C77": [
  "`Body`",
  "case analysis"
 ],
 "C78": [
  "`tensor_lambdify`",
  "permutation argument"
 ],
 "C79": [
  "`Kerr` (predefined)",
  "Ricci = 0 by a certified Christoffel table"
 ],
 "C80": [
  "`ReissnerNordstorm`, `KerrNewman`",
  "mixed Ricci, Rainich conditions"
 ],
 "C81": [
  "Godel, C-metric, Ernst, Davidson, Barriola-Vilenkin, Bertotti-Kasner",
  "Ricci per metric"
 ],
 "C82": [
  "`JanisNewmanWinicour`",
  "exact Ricci; refuted unless c^2 = 1"
 ],
 "C83": [
  "`Shadow` intensities",
  "closed form of the integrands, positivity"
 ],
 "C84": [
  "`_root_equation`",
  "exact condition; refuted"
 ],
 "C85": [
  "histories of plotter calls",
  "induction over call histories; refuted for failed plot2D"
 ],
 "C86": [
  "`animate`",
  "limits, frames; refuted"
 ],
 "C87": [
  "one step of every order",
  "word series of Lie derivatives + Taylor remainders"
 ],
 "C88": [
  "one step of every order",
  "chain rule along tangent curves, stage by stage"
 ],
 "C89": [
  "`calculate_trajectory` with any step count",
  "local consistency and Lipschitz bound uniform on a compact tube (real induction), discrete Gronwall over the steps"
 ],
 "C90": [
  "`change_config`, `lorentz_transform`, constructors and names of every tensor class as object operations",
  "induction over the operation list; refuted for the stress-energy tensor"
 ],
 "C91": [
  "one `RK4naive.step` on an arbitrary right-hand side",
  "time added as a component; quadratic remainder by coordinate-wise mean value theorem; stage residuals bootstrapped against the solution at t, t+h/2, t+h, Simpson's rule"
 ],
 "C92": [
  "n-fold `RK4naive.step`",
  "C91 uniform on the compact interval (real induction), Lipschitz bound of a step, discrete Gronwall"
 ],
 "C93": [
  "`calculate_trajectory`, all rows",
  "chain rule along Hamilton's equations; C89 and a uniform Lipschitz bound of the Hamiltonian on a compact tube"
 ],
 "C94": [
  "`BesselGravitationalWave` in a symbolic domain extended by function symbols with differentiation rules; Bessel functions as power series",
  "Ricci tensor of the general wave metric in closed form; Bessel's equation for the published metric; intermediate value/mean value argument between orders 1 and 2 for the coded one"
 ],
 "C95": [
  "`f_vec` of the three classes",
  "metric independent of t and phi, so the lowered geodesic equation has zero right-hand side; Kerr: exact drift from the entry of C35"
 ],
 "C96": [
  "`Geodesic.__init__`, `calculate_trajectory`, the integrator, the three built-in metrics as programs",
  "equivariance of each sub-flow under signed affine maps, induction over rows; parity of the metric programs by a syntactic predicate"
 ],
 "C97": [
  "`calculate_trajectory`, all rows",
  "Hamilton's equations and the mean value theorem; C89"
 ],
 "C98": [
  "`Geodesic.__init__`, `calculate_trajectory`, `examples.precession`",
  "fixed points of the reflection of C96; an invariant kept by every sub-flow"
 ],
 "C99": [
  "`Geodesic.__init__`, `_P`, `calculate_trajectory`, the built-in metrics",
  "explicit solutions of Hamilton's equations in the Kerr-Newman family, then C89"
 ],
 "C100": [
  "`metric_covariant`, `christoffels`, `f_vec`, `singularities` of the three classes",
  "arrays compared entry by entry; uniqueness of inverse, gradient and Levi-Civita connection for the Christoffel symbols"
 ],
 "C101": [
  "same",
  "difference of the two Christoffel arrays from C35's entry, then of the accelerations"
 ],
 "C102": [
  "SymTransform.v: from_new2old as the entrywise reciprocal of the partial derivatives, __new__'s rank check, from_old2new",
  "algebra over dlaws: entries, inv(), diagonal of the product = n (C102_entries, C102_never_inverse); C102_jacobian_refuted gives a linear change of coordinates whose Jacobian is invertible; right in one dimension (C102_one_dimension)"
 ],
 "C103": [
  "SymCov.v, SymCov2.v (coord_change: a ring homomorphism obeying the chain rule; pull: the tensor transformation law), SymCovInst.v (substitution of expressions for coordinates)",
  "connection law by cancelling the metric, curvature law by differentiating it, traces and products by induction over configurations; the expression domain satisfies coord_change for every substitution by induction over expressions (C103_substitution); MinkowskiPolar from MinkowskiCartesian (C103_minkowski_polar, C103_nonvacuous)"
 ],
 "C104": [
  "SymConf.v on top of the modelled constructors of SymModel.v",
  "lowered Riemann tensor of f g = f (Riemann + Kulkarni-Nomizu(T, g)) by the explicit connection; both Weyl tensors are trace-free, and a trace-free Kulkarni-Nomizu product vanishes when n >= 3; configurations by induction"
 ],
 "C105": [
  "MetricHamilton.v, MetricHamilton2.v on top of MetricModel.v (f_vec) and FantasyModel.v/GeodesicModel.v (Hamiltonian integrator)",
  "Hamilton's equations of the inverse metric are the geodesic equation (derivative of an inverse matrix; momentum = lowered velocity), transported to SI units by the scaling (GM/c^3, GM/c^2, 1, 1); then C93's convergence theorem. Kerr: exact condition from C101"
 ],
 "C106": [
  "MetricRK.v: f_vec as the 8-component right-hand side given to RKModel.v's RK4naive",
  "the right-hand side equals an expression program wherever it is defined (implements), so C91/C92's order-4 convergence applies; the triangle inequality with C105"
 ],
 "C107": [
  "Picard.v, PicardProg.v on top of FantasyModel.v, GeodesicModel.v, RKModel.v, MetricModel.v",
  "Picard iteration for locally bounded and Lipschitz right-hand sides (programs are, by ProgCont.v); uniqueness because both solutions are the limit of the same computed rows (C93, C91); f_vec through MetricRK.v's implementing programs"
 ],
 "C108": [
  "PredefNum.v: PredefModel.v (symbolic predefined metrics) against MetricModel.v (numeric classes) and GeoUtilsModel.v (geodesic)",
  "entrywise field identities; a metric that is a constant multiple of another has the same connection (uniqueness of derivatives and of the matrix inverse), so the symbolic Christoffel table equals the numeric array"
 ],
 "C109": [
  "FloatModel.v (the programs of DualModel, FantasyModel, GeodesicModel over an arbitrary arithmetic), FloatIEEE.v (IEEE formats, Flocq)",
  "FloatExact.v: on exact arithmetic they are the exact models; FloatTrack.v: each operation keeps |computed - exact| <= C u, along a filter of arithmetics and inputs; FloatGlobal.v: uniform along the motion by real induction, perturbed discrete Gronwall inequality; FloatTraj.v, FloatMain.v: P, cartesian output, named black holes with C107's existence theorem"
 ],
 "C110": [
  "FloatModel.v, FloatTraj.v, FloatMain.v",
  "the same tracking for single evaluations; true derivatives by DualDiff.v"
 ],
 "C111": [
  "FloatRK.v: RK4naive over an arbitrary arithmetic, the right-hand side a list of programs, arrays as lists of floats",
  "FloatRK2.v: tracking of one step (FloatTrack.v); time becomes component 0 of an autonomous system so that its rounding is covered; uniform along the solution by real induction; signed-step perturbed Gronwall inequality; run against run by induction on the steps"
 ],
 "C112": [
  "Geodesic with the named metrics in any accurate arithmetic (FloatModel.v), exact motion by Hamilton's equations; Carter's quantity and the angular momentum vector as programs",
  "separated form of the inverse metric (field), derivative along the motion is 0, mean value theorem; uniform Lipschitz bound of a program along the motion by real induction; rounding theorem C109"
 ],
 "C113": [
  "FloatCoordModel.v: the conversions of coordinates/utils.py over an arbitrary arithmetic with hypot, arctan2 and arccos",
  "FloatCoord.v: tracking of each operation along a filter of arithmetics and inputs; FloatCoordMain.v: the explicit bounds, round trips composed with the exact inverses C19-C23; FloatCoordExact.v: the programs in exact arithmetic are the exact models; FloatCoordIEEE.v: IEEE formats (Flocq)"
 ],
 "C114": [
  "cart_to_blB in binary64 (Flocq), any libm whose hypot and sqrt are right on this point",
  "the six roundings computed exactly; arccos of a number above 1 is nan"
 ],
 "C115": [
  "FloatMetricModel.v: metric_covariant, christoffels, f_vec and the electromagnetic tensor operation by operation as programs run in an arbitrary arithmetic; sqrt(sigma)**2 of base_metric.rho, 1/np.tan and np.linalg.inv are kept as such",
  "FloatMetric.v, FloatMetric2-5.v: filter-based tracking of every operation; the cotangent near the pole of the tangent, the inverse by C124 (or by its error bound); FloatMetric6.v: explicit constants; FloatMetric8.v: IEEE formats"
 ],
 "C116": [
  "rk4_stepsF (FloatRKG.v): RK4naive in an arbitrary arithmetic calling an arbitrary function; the f_vec of FloatMetricModel.v",
  "FloatRKG.v: rounding and stability for a callable that follows programs up to rounding; FloatMetric7.v: the exact f_vec as systems of programs with explicit matrix inverse; perturbed discrete Gronwall"
 ],
 "C117": [
  "kerr_f_vec, kn_f_vec (MetricModel.v) with every charge; RK4naive (RKModel.v)",
  "FloatMetric7.v: f_vec as a system of programs wherever it is defined; Picard iteration and order-4 convergence of C106/C107"
 ],
 "C118": [
  "four_velA, v0A (FloatVel.v): position() and velocity(metric) of coordinates/differential.py with utils.v0, in an arbitrary arithmetic",
  "FloatVel.v: rounding tracked through the discriminant, square root and quotient; the discriminant is positive because the 3-velocity is subluminal"
 ],
 "C119": [
  "flowA (FloatFlow.v): four_velA followed by rk4_stepsF on the f_vec of FloatMetricModel.v",
  "FloatFlow.v: C118 composed with C116; existence of the motion by Picard iteration (C107, C117)"
 ],
 "C120": [
  "flowA; the quantities norm, energy and axial angular momentum computed from the metric at the computed position",
  "FloatInv.v: a program quantity is uniformly Lipschitz near the motion (real induction); constant along the exact motion (C39, C95); composed with C119"
 ],
 "C121": [
  "conversion of Cartesian SI coordinates, 4-velocity and RK4naive in floating point (FloatCart.v: cart_flowA)",
  "FloatCart.v: C113 composed with C119"
 ],
 "C122": [
  "Geodesic with return_cartesian=True in floating point (FloatModel.v: to_cartesianA)",
  "FloatOut.v, FloatOut2.v: the conversion is within C d of the exact one, uniformly on bounded sets; FloatOut3.v: composed with C109 along the compact motion"
 ],
 "C123": [
  "conversion in, RK4naive, conversion out in floating point (FloatOut4.v: cart_outA)",
  "FloatOut4.v: C121 for each of the three starts 2 pi apart, the uniform back-conversion of FloatOut2.v, the chain rule of CoordProofs2.v and CoordProofs4.v"
 ],
 "C124": [
  "FloatLU.v: LAPACK gesv (idamax, row exchange, scaling by the reciprocal of the pivot, elimination, back substitution) in an arbitrary arithmetic, for n equations and q right-hand sides; numpy.linalg.inv is gesv with the identity",
  "FloatLU2.v: each stage is within C u of the exact one for bounded data; FloatLU3.v: elimination preserves the solutions, a nonsingular system has a pivot, the pivot picked in floating point is nonzero in exact arithmetic; FloatLU4.v: induction on the size; FloatLU5.v: the 4 x 4 inverse and the exact run"
 ],
 "C125": [
  "conversion methods of the coordinate and differential classes (ConvModel), chains as lists of target systems",
  "each hop depends on the event only (`hop_ok`, `hopv_ok`); induction on the chain (ConvPath)"
 ],
 "C126": [
  "Carter's quantity and the Cartesian components of angular momentum computed from the metric at the (computed) position; flowA",
  "MetricCarter.v: the SI motion is a Hamiltonian motion of the unit-mass hole (C106), whose Carter constant and angular momentum vector are conserved (C112); FloatConst.v: program quantities kept as in C120"
 ],
 "C127": [
  "the trajectories of C110/C112/C119 and the f_vec motions of C106, with no new model function; radial potential written out",
  "Contin.v: continuation of solutions of program systems that stay in a box (local existence by Picard iteration, compactness of boxes, gluing); GlobalHole*.v: a-priori bounds from the four constants of motion (Delta^2 p_r^2 = radial potential, Carter's constant keeps theta off the axis, r grows at most linearly); GlobalMotion.v, GlobalOrbit.v: named metrics, SI classes, convergence of the computed rows"
 ],
 "C128": [
  "hopB, hopP, walkB, walkP, alphaB (FloatPath.v): the conversion formulas of FloatCoordModel composed along the chain, BaseMetric.alpha; SI values (the products with a unit scale of 1 are exact)",
  "composition lemma `chain`: the second program starts within K' u of the first one's exact result turned by -1, 0 or 1 full turns; the exact object of the chain depends on the event only (ConvPath); induction on the chain"
 ],
 "C129": [
  "SymbolicConstant.__new__ and descriptive_name, get_constant, module import (SymConst.v); sympy's cached Symbol.__new__ as a finite map from name and assumptions to objects that may lose entries at any time",
  "invariant: a cache entry points to an object of its key; induction on the history. The last clause is false of the code: refutation, and the true rule (last construction that returned the object)"
 ],
 "C130": [
  "the models of C127 (Geodesic, f_vec, velocity, RK4naive); nothing new",
  "orbits exist to any T or to their first arrival at r1 (continuation in a box, Leave.v); (Delta p_r)^2 equals the radial potential, so the sign of p_r is kept where that is positive; bounds below on the speed give arrival and escape; at a simple root the second derivative of r is positive and the time to reach it finite (comparison with a square root); rows by the convergence theorems of C87, C109-C121"
 ],
 "C131": [
  "`fractal` whole: linspace of the angles, one heatmap per angle, visible flag, slider; plotly restyle of `visible` as documented; all histories of slider moves",
  "invariant over the history of moves; index reasoning on lists; images by C74's model of `_fractal_img` "
 ],
 "C132": [
  "the models of C127 and C130; nothing new",
  "solutions on every [0, T] and uniqueness are glued into one on [0, oo) (unique description of the value at t, locality of solutions); the fates of C127/C130 carried over; rows by the convergence theorems; the accuracy statement chooses the step from K and r, then the number of bits from the step"
 ]
}