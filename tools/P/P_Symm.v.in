(** Properties C96-C99: symmetries of computed geodesics and momenta of cyclic coordinates, planar, radial and circular orbits. *)
From Coq Require Import String Reals List ZArith Lra Lia Bool.
From Coquelicot Require Import Coquelicot.
From Verif Require Import Base Calc DualModel DualSpec DualProofs DualDiff GeoUtilsModel GeoUtilsSpec GeoUtilsProofs GeodesicModel GeodesicProofs
  FantasyModel FantasyProofs FantasyProofs2 FantasyProofs3 FantasyHam FantasySymp ProgCont WordSeries WordOrder FantasyOrder FantasyOrder2 FantasyOrder3 FantasyOrder4
  FantasyGlobal FantasyGlobal2 FantasyGlobal3 FantasyShell FantasySymm FantasySymm2 FantasySymm3 FantasySymm4 FantasySymm5 FantasyCyclic FantasyPlane FantasyCircular FantasyRay.
Import ListNotations.
Open Scope R_scope.

(** C96. [mapR f] applies f to a successful result and leaves an exception alone, so each equation also says that the moved run raises exactly
    when the original does. [rotate_point c s], [mirror_point c]: rotation by s about the axis, reflection in the equatorial plane, in (t, r, theta, phi)
    (c = false) or in (t, x, y, z) (c = true). [map_geo fp fm c] moves the position, the momentum and every row of a Geodesic object. *)
@thm C96_rotate FantasySymm5.named_rotate -- C96: turning the initial azimuth turns the whole computed geodesic, for the built-in metrics
@thm C96_mirror FantasySymm5.named_mirror -- C96: reflecting the initial data in the equatorial plane reflects the whole computed geodesic
@thm C96_rotate_any_metric FantasySymm4.geodesic_rotate -- the same for any user metric that does not mention phi
@thm C96_mirror_any_metric FantasySymm4.geodesic_mirror -- the same for any user metric built with definite parity in theta -> pi - theta
@thm C96_trajectory_shift FantasySymm5.trajectory_shift -- shifting a coordinate the metric does not mention (time, azimuth, ..) shifts every row
@thm C96_t_phi_reversal FantasySymm5.trajectory_tphi -- (t, phi) -> (-t, -phi) for a stationary axisymmetric circular metric
@thm C96_named_metrics_are_circular FantasySymm5.named_circular -- whose hypotheses the built-in metrics meet
@thm C96_momentum_reversal FantasySymm4.trajectory_backward -- for every metric: reversed momentum with reversed step gives the same positions, reversed momenta
@thm C96_trajectory_rotate FantasySymm4.trajectory_rotate -- the row-level statement, Cartesian output included
@thm C96_trajectory_mirror FantasySymm4.trajectory_mirror -- the row-level statement, Cartesian output included
Example C96_nonvacuous :
  well_formed demo /\ independent_of demo 0 /\ independent_of demo 3 /\ mirror_program demo /\ circular demo /\
  every_metric (MCallable (fun _ => Ok demo)) (fun g => well_formed g /\ independent_of g 3) /\
  every_metric (MCallable (fun _ => Ok demo)) mirror_program /\
  exists o, mk_geodesic (MCallable (fun _ => Ok demo)) [] (2, 1, 0) (0, 1, 2) true true (mkkw 50 (/ 2) (/ 100) (/ 100) 2 1 false) = Ok o.
Proof.
  destruct demo_symmetries as (W & I0 & I3 & M & C). repeat (split; [assumption|]).
  split; [intros call prms g R E; cbn in R; apply Ok_inj in R; subst call; apply Ok_inj in E; subst g; split; assumption|].
  split; [intros call prms g R E; cbn in R; apply Ok_inj in R; subst call; apply Ok_inj in E; subst g; assumption|].
  apply demo_geodesic; cbn; lia.
Qed.

(** C97. [geodesic_on g q p T]: (q, p) solves Hamilton's equations of the metric program g on [0, T]. *)
@thm C97_exact_constant FantasyCyclic.cyclic_constant -- along the exact geodesic the momentum of a coordinate the metric does not mention is constant
@thm C97_drift FantasyCyclic.cyclic_momentum_drift -- C97: every row of the computed trajectory keeps that momentum up to C h^n, n = 2 (4 for order 4)
Example C97_nonvacuous : well_formed lin_metric /\ symmetric_program lin_metric /\ independent_of lin_metric 0 /\ (forall T, geodesic_on lin_metric lin3_q lin3_p T) /\
  q4nth (lin3_p 0) 0 = 3 /\ (forall t, 0 <= t -> q4nth (lin3_p t) 1 = / (1 + t / 2)) /\ exists f, integrator_of 4 (metricfun_of lin_metric) 1 = Ok f.
Proof.
  split; [exact lin_wf|]. split; [exact lin_sym|]. split; [intros i j Hi Hj; ix i Hi; ix j Hj; reflexivity|]. split; [exact lin3_geodesic_on|].
  split; [reflexivity|]. split; [reflexivity|]. eexists. reflexivity.
Qed.

(** C98. [in_equator c r]: the row r has theta = pi/2 (z = 0 in Cartesian output, c = true) and p_theta = 0. [on_radius c th ph r]: it lies on the ray
    (th, ph) from the centre and has no angular momentum. *)
@thm C98_equatorial FantasyPlane.equator_named -- C98: equatorial initial data give equatorial rows, for the built-in metrics
@thm C98_equatorial_any_metric FantasyPlane.equator_any
@thm C98_radial FantasyPlane.radial_schwarzschild -- C98: radial initial data give radial rows in Schwarzschild, along any direction
@thm C98_radial_any_metric FantasyPlane.radial_any
@thm C98_precession_example FantasyPlane.precession_planar -- einsteinpy.examples.precession(): 5500 rows in the plane z = 0
Example C98_nonvacuous : (exists kw o, mk_geodesic (MName "Schwarzschild") [] (4, PI / 2, 0) (0, 0, 4 / sqrt (4 - 3)) true false kw = Ok o /\ snd (geo_trajectory o) <> [])
  /\ (exists kw o, mk_geodesic (MName "Schwarzschild") [] (4, 1, 2) (4 / (4 - 2), 0, 0) false false kw = Ok o /\ snd (geo_trajectory o) <> []) /\ mirror_program demo /\ radial_block schE.
Proof.
  split; [|split; [|split; [apply demo_symmetries|exact sch_block]]].
  - destruct (circular_schwarzschild 4 2 1 2 1 ltac:(lra) ltac:(cbn; tauto) ltac:(tauto) ltac:(lra)) as (C & N0 & HN & H). destruct (H N0 0 0 false (le_n _)) as (o & E & L & _).
    eexists _, o. split; [exact E|]. destruct (snd (geo_trajectory o)); [cbn in L; lia|discriminate].
  - assert (S1 : sin 1 <> 0) by (apply Rgt_not_eq, sin_gt_0; [lra|assert (H := PI2_3_2); lra]).
    destruct (radial_light 4 1 2 2 1 2 1 ltac:(lra) S1 ltac:(cbn; tauto) ltac:(tauto) ltac:(lra)) as (C & N0 & HN & H). destruct (H N0 0 0 false (le_n _)) as (o & E & L & _).
    eexists _, o. split; [exact E|]. destruct (snd (geo_trajectory o)); [cbn in L; lia|discriminate].
Qed.

(** C99. [hole m prms a Q]: the arguments (m, prms) name the black hole of spin a and charge Q. The orbit has radius [c_r Q u] = u^2 + Q^2 (any r >= Q^2; u > 0
    prograde, u < 0 retrograde), energy [c_E], angular momentum [c_L], angular velocity [c_pd / c_td]; [c_norm] = 1 fixes the scale k for particles, [c_norm] = 0
    is the photon orbit equation. *)
@thm C99_circular FantasyCircular.circular_orbit -- C99: particles and light released on a circular orbit stay on it up to C h^n
@thm C99_schwarzschild FantasyCircular.circular_schwarzschild -- every radius above the photon sphere
@thm C99_photon_sphere FantasyCircular.photon_sphere
@thm C99_radial_light FantasyRay.radial_light -- outgoing light: r = r0 + lambda, t the tortoise coordinate
@thm C99_exact FantasyCircular.circ_exact -- the circle solves the geodesic equation
@thm C99_built_in FantasyCircular.named_is_kn -- and the built-in metrics are Kerr-Newman metrics
@thm C99_schwarzschild_data FantasyCircular.sch_data -- non-vacuity: data for every r > 3
Example C99_nonvacuous : hole (MName "Kerr") [3 / 5] (3 / 5) 0 /\ exists k, circ_ok (3 / 5) 0 3 /\ c_r 0 3 = 9 /\ 0 <= c_td (3 / 5) 0 3 k /\ c_norm (3 / 5) 0 3 k = 1.
Proof.
  split; [right; left; repeat split|]. exists (/ (9 * sqrt (54 + 18 / 5))). assert (S : sqrt (54 + 18 / 5) * sqrt (54 + 18 / 5) = 54 + 18 / 5) by (apply sqrt_sqrt; lra).
  assert (P : 0 < sqrt (54 + 18 / 5)) by (apply sqrt_lt_R0; lra). unfold circ_ok, c_td, c_norm, c_r, DeltaS. split; [split; lra|]. split; [ring|]. split.
  - apply Rmult_le_pos; [|lra]. left. apply Rinv_0_lt_compat. lra.
  - transitivity ((54 + 18 / 5) / (sqrt (54 + 18 / 5) * sqrt (54 + 18 / 5))); [field; lra|]. rewrite S. field.
Qed.
