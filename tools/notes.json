{
 "C02": "FINDING: at 0/0 DualNumber.__truediv__ returns the correct limit as value (proved) but sets the derivative to 0, which is wrong in general (witness x^2/x at 0: derivative 1). The derivative half of the property is refuted for the code.",
 "C07": "FINDING: _P uses only g00, g03 and the diagonal; for a user metric with other off-diagonal entries the returned momentum is off shell by exactly the ignored cross terms (proved), so the property as stated is refuted with a witness.",
 "C13": "FINDING: _ord_6 and _ord_8 call _ord_4/_ord_6 whose inner weights use _Z(self.order), so the third-order error does not cancel; refuted for both orders. On the explicit inverse metric diag(-1, x, 1, 1) a step of order 6 or 8 is proved not to be third-order accurate (C13_local_order_3_refuted), so both are exactly second order there. Correct nesting is proved to cancel.",
 "C14": "History, counter, warning condition and suppression proved for every number of steps; with warnings turned into errors the history invariant fails (finding, refuted): step_num and the state advance but results does not.",
 "C15": "All clauses proved for steps >= 1; for steps = 0 the code raises IndexError instead of returning an empty trajectory (finding).",
 "C17": "FINDING: RK4naive computes direction = 1*(t_bound >= t0) - 1*(not t_bound < t0), which is 0 for every input, so the stop test never fires: refuted; what the code does instead (never refuses a step, passes any bound) is proved.",
 "C24": "FINDING: cartesian_to_bl computes v_phi through y/x, so it is not finite on the whole plane x = 0 although v_phi exists there; refuted, and availability is characterised exactly (x <> 0).",
 "C28": "FINDING: schwarzschild_radius and alpha read M.value, not M.si.value, so 1 tonne and 1000 kg give different radii: refuted; proved right exactly when the unit is SI (or the value is 0).",
 "C35": "FINDING: Kerr's tabulated d g_33/d r has the wrong sign of its spin term; every other entry is proved to be the derivative and the error of [1,3,3] is given in closed form.",
 "C37": "FINDING: KerrNewman.metric_covariant never uses Q (delta is called without it): refuted; the array is proved to be the uncharged Kerr metric, wrong for every Q<>0 and finite at the reported horizons.",
 "C40": "Norm conservation proved for Schwarzschild and for Kerr-Newman with q=0; FINDING: refuted for the Kerr class because of the wrong derivative entry of C35; exact drift proved.",
 "C41": "Antisymmetry (covariant and contravariant) and the electric components proved; FINDING: F_13 and F_23 have the opposite sign of the exterior derivative, refuted whenever spin and charge are non-zero, true otherwise.",
 "C42": "FINDING: f_vec computes (F_contra @ v) @ g instead of F_contra @ (g @ v), so the electromagnetic term does work on the norm: refuted; exact drift proved and the textbook contraction proved to preserve the norm.",
 "C48": "Sign of the Lambda term is the code's (G - Lambda g); the property states the code's convention, the usual field equations have G + Lambda g.",
 "C53": "FINDING: tensor_product tests `(i or j) is None`, so i=0 with j omitted silently returns the outer product (refuted); any other missing index raises TypeError (proved).",
 "C55": "FINDING: lorentz_transform acts on lower indices with the matrix itself (transposed), not with its inverse; contraction is invariant exactly when the matrix is an involution (proved for every dimension), refuted for the boost of velocity 3/5.",
 "C56": "Proved for every history of calls on metrics created as ll or uu: inverse, cached object, values, lower_config. Findings: for an object produced by change_config whose source already has a cached inverse, inv().inv() is an equal but different object (refuted); for a metric created as ul, lower_config can return an object labelled ul (refuted).",
 "C58": "FINDING: subs rebuilds Tensor(...) with the default config 'll': rank 2 loses its configuration, other ranks raise ValueError.",
 "C59": "FINDING: TransformationMatrix.inv() is 1/self entrywise, not the matrix inverse; refuted, and proved never to be the inverse for 2x2 or symmetric matrices without zero entries.",
 "C61": "Every chart point and every value of c; also the cosmological AntiDeSitter slicing. Curvature is what the library's own constructors return, for any correct simplify/inverse oracle.",
 "C63": "FINDING: DeSitter uses t = coords[1] (the x coordinate) in the scale factor; its Ricci tensor is computed exactly and is no multiple of g (refuted); the documented line element is proved to satisfy Ricci = 3/alpha^2 g.",
 "C64": "FINDING: JanisNewmanWinicour lacks 1/c^2 in its angular part, so gamma=1 is Schwarzschild (up to signature) exactly when c^2=1 (refuted otherwise). All other specialisations proved.",
 "C65": "FINDING: the bubble radius uses y and z instead of y^2 and z^2; proved equal to the Euclidean distance exactly where y+z = y^2+z^2, refuted in general.",
 "C80": "Mixed Ricci components given explicitly; trace zero and algebraic Rainich condition (Ricci squared is a multiple of the identity) proved.",
 "C81": "BesselGravitationalWave is not covered beyond symmetry: Bessel functions are not in the expression language.",
 "C82": "FINDING: Ricci_theta_theta = 1-c^2 because the angular part lacks 1/c^2; the property holds exactly when c^2=1.",
 "C66": "dir() of einsteinpy.symbolic.predefined is a literal list in the model; the specification theorem holds for every list of names.",
 "C67": "binary64 division modelled with Flocq (round to nearest even); proved for every dimension with d**3 (resp. d**4) <= 2**53, sharp beyond.",
 "C68": "np_pow models numpy's nan/inf as NonFinite; Cosmo_Const is an arbitrary value in s^-2.",
 "C69": "FINDING: for masses with 6*M.value <= 0.0001 the only sample is r_init, beyond 9M (C69_small_mass_refuted). A negative alpha never returns. The 1-D Z of get_values_surface (Z.reshape result is dropped) is what C69_surface describes.",
 "C70": "FINDING: the coded slope squared is R(r) times the isometric slope squared, so the embedding is isometric only where R = 1 (C70_isometric_refuted).",
 "C71": "newton is an arbitrary function of the ray; fixed_quad is its 5-point Gauss rule; interp1d's documented rejections only. smoothen raises ValueError whenever the critical ray itself is kept.",
 "C72": "FINDING: the drawn ergosphere uses a instead of a**2, so it cuts inside the horizon wherever cos^2 theta > a (C72_2D_refuted), and in 3D uses the azimuth for the polar angle (C72_3D_refuted).",
 "C73": "The artists' data are modelled, styling is not. Coordinate indices are Python ints.",
 "C74": "Exact complex arithmetic; iter_max >= 0.",
 "C75": "Arguments are quantities or other objects.",
 "C76": "Arguments are their str() forms; ASCII strings.",
 "C77": "Body.__post_init__ with astropy's unit checks.",
 "C78": "Symbols are numbers with names; sympy's free_symbols set is any duplicate-free list; lambdify's callable is evaluation of the expression.",
 "C83": "newton's accepted roots are assumed to be in [3M, fov) and at or outside the turning point (C84_safe shows exact roots are).",
 "C84": "FINDING: the root equation truncates the mass with int(), so the radius is the turning point exactly when the mass is a whole number of kg (C84_turning_iff, C84_turning_refuted).",
 "C85": "FINDING: plot2D draws the black hole before validating the indices, so a rejected call still changes the figure (C85_failed_plot2D_refuted).",
 "C86": "FINDING: frames are numbered 0..N-1 and frame k shows k points, so the last trajectory point is never drawn (C86_last_point_refuted).",
 "C90": "FINDING: StressEnergyMomentumTensor.change_config returns an EinsteinTensor (C90_stress_energy_refuted); proved for every other class and every history.",
 "C94": "FINDING: the file calls besselj(rho, 0) and besselj(rho, 1), i.e. with order and argument swapped (sympy's signature is besselj(nu, z)); the published metric with J_0(rho), J_1(rho) is proved Ricci-flat, the Ricci tensor of the coded one is computed and proved nonzero somewhere for every C <> 0.",
 "C95": "FINDING: for Kerr the angular momentum is not conserved because of the wrong entry of C35 (exact rate of change proved); its energy, and both constants for Schwarzschild and KerrNewman, are proved conserved.",
 "C101": "FINDING: the metric arrays agree, but the accelerations differ by an explicit non-zero amount wherever the wrong [1,3,3] entry of Kerr's derivative array (C35) is wrong; they agree at a point for all velocities exactly where that error vanishes (e.g. without spin, on the axis).",
 "C102": "FINDING: from_new2old (symbolic/helpers.py:154-156) takes the entrywise reciprocal of the Jacobian instead of its matrix inverse. With two or more coordinates and no vanishing partial derivative the result is never the inverse Jacobian (the product has n on the diagonal); vanishing derivatives give zoo. It is right only in one dimension. from_old2new always raises NotImplementedError.",
 "C105": "FINDING: Kerr.f_vec (wrong [1,3,3] entry of its derivative array, C35) does not follow the curves computed by Geodesic(metric='Kerr') unless kerr_err times the azimuthal velocity vanishes (proved iff; refuted on the circular orbit at r = 9, a = 3/5). Schwarzschild and KerrNewman are proved to agree.",
 "C108": "FINDING: agreement holds for Schwarzschild, for every Kerr metric entry and for uncharged KerrNewman; the numeric Kerr Christoffel symbols differ from the symbolic ones (three independent entries) wherever kerr_err <> 0 (same defect as C35), and the numeric KerrNewman class ignores the charge that the symbolic metric and Geodesic's metric contain (C37). Exact differences are proved.",
 "C114": "FINDING: refuted. On the rotation axis z / r can round to 1 + 2^-52, and np.arccos of it is nan: proved for x = y = 0, z = 0.2, alpha = 0.9 in binary64. In exact arithmetic the conversion is defined on the whole axis but the origin (proved). Clipping z / r to [-1, 1] would repair it. Off the axis C113 applies.",
 "C129": "FINDING: the last clause is false. Symbol.__new__ returns the object sympy's cache holds for the name and assumptions, and SymbolicConstant.__new__ then sets _descriptive_name on it: SymbolicConstant('c') returns the module's c and erases its description (proved: C129_description_refuted, C129_overwrites). Everything else is proved for every history; descriptions are kept as long as no constant of the same name is constructed (C129_descriptions_kept). That sympy's cache behaves so is trusted (sympy is not in /repo).",
 "C131": "Observation: before the slider is first moved all n heatmaps are drawn (visible is set only on the last and unset means shown); only the last is seen because it lies on top. Parametrised by image size and iter_max; the code has 400 and 64."
}