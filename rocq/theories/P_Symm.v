(* generated from tools/P/P_Symm.v.in by tools/genp.py: statements only, proofs are references *)
(** Properties C96-C99: symmetries of computed geodesics and momenta of cyclic coordinates, planar, radial and circular orbits. *)
From Coq Require Import String Reals List ZArith Lra Lia Bool.
From Coquelicot Require Import Coquelicot.
From Verif Require Import Base Calc DualModel DualSpec DualProofs DualDiff GeoUtilsModel GeoUtilsSpec GeoUtilsProofs GeodesicModel GeodesicProofs
  FantasyModel FantasyProofs FantasyProofs2 FantasyProofs3 FantasyHam FantasySymp ProgCont WordSeries WordOrder FantasyOrder FantasyOrder2 FantasyOrder3 FantasyOrder4
  FantasyGlobal FantasyGlobal2 FantasyGlobal3 FantasyShell FantasySymm FantasySymm2 FantasySymm3 FantasySymm4 FantasySymm5 FantasyCyclic FantasyPlane FantasyCircular FantasyRay.
Import ListNotations.
Open Scope R_scope.

(** C96. [mapR f] applies f to a successful result and leaves an exception alone, so each equation also says that the moved run raises exactly
    when the original does. [rotate_point c s], [mirror_point c]: rotation by s about the axis, reflection in the equatorial plane, in (t, r, theta, phi)
    (c = false) or in (t, x, y, z) (c = true). [map_geo fp fm c] moves the position, the momentum and every row of a Geodesic object. *)
(** C96: turning the initial azimuth turns the whole computed geodesic, for the built-in metrics *)
Theorem C96_rotate : forall s prms x1 x2 x3 mom tl cart kw a,
  In s ["Schwarzschild"; "Kerr"; "KerrNewman"]%string ->
  mk_geodesic (MName s) prms (x1, x2, x3 + a) mom tl cart kw
  = mapR (map_geo (fun c => rotate_point c a) (fun p => p) cart) (mk_geodesic (MName s) prms (x1, x2, x3) mom tl cart kw).
Proof. exact FantasySymm5.named_rotate. Qed.
Print Assumptions C96_rotate.

(** C96: reflecting the initial data in the equatorial plane reflects the whole computed geodesic *)
Theorem C96_mirror : forall s prms x1 x2 x3 u1 u2 u3 tl cart kw,
  In s ["Schwarzschild"; "Kerr"; "KerrNewman"]%string ->
  mk_geodesic (MName s) prms (x1, PI - x2, x3) (u1, - u2, u3) tl cart kw
  = mapR (map_geo mirror_point mirror_momentum cart) (mk_geodesic (MName s) prms (x1, x2, x3) (u1, u2, u3) tl cart kw).
Proof. exact FantasySymm5.named_mirror. Qed.
Print Assumptions C96_mirror.

(** the same for any user metric that does not mention phi *)
Theorem C96_rotate_any_metric : forall m prms x1 x2 x3 mom tl cart kw s,
  every_metric m (fun g => well_formed g /\ independent_of g 3) ->
  mk_geodesic m prms (x1, x2, x3 + s) mom tl cart kw = mapR (map_geo (fun c => rotate_point c s) (fun p => p) cart) (mk_geodesic m prms (x1, x2, x3) mom tl cart kw).
Proof. exact FantasySymm4.geodesic_rotate. Qed.
Print Assumptions C96_rotate_any_metric.

(** the same for any user metric built with definite parity in theta -> pi - theta *)
Theorem C96_mirror_any_metric : forall m prms x1 x2 x3 u1 u2 u3 tl cart kw,
  every_metric m mirror_program ->
  mk_geodesic m prms (x1, PI - x2, x3) (u1, - u2, u3) tl cart kw = mapR (map_geo mirror_point mirror_momentum cart) (mk_geodesic m prms (x1, x2, x3) (u1, u2, u3) tl cart kw).
Proof. exact FantasySymm4.geodesic_mirror. Qed.
Print Assumptions C96_mirror_any_metric.

(** shifting a coordinate the metric does not mention (time, azimuth, ..) shifts every row *)
Theorem C96_trajectory_shift : forall g k s q0 p0 tl kw,
  well_formed g -> independent_of g k ->
  calculate_trajectory g (shift_point k s q0) p0 tl false kw
  = mapR (fun t => (fst t, map (fun r : row => (shift_point k s (fst r), snd r)) (snd t))) (calculate_trajectory g q0 p0 tl false kw).
Proof. exact FantasySymm5.trajectory_shift. Qed.
Print Assumptions C96_trajectory_shift.

(** (t, phi) -> (-t, -phi) for a stationary axisymmetric circular metric *)
Theorem C96_t_phi_reversal : forall g q0 p0 tl kw,
  well_formed g -> independent_of g 0 -> independent_of g 3 -> circular g ->
  calculate_trajectory g (tphi_point q0) (tphi_point p0) tl false kw
  = mapR (fun t => (fst t, map (fun r : row => (tphi_point (fst r), tphi_point (snd r))) (snd t))) (calculate_trajectory g q0 p0 tl false kw).
Proof. exact FantasySymm5.trajectory_tphi. Qed.
Print Assumptions C96_t_phi_reversal.

(** whose hypotheses the built-in metrics meet *)
Theorem C96_named_metrics_are_circular : forall s prms call g,
  In s ["Schwarzschild"; "Kerr"; "KerrNewman"]%string -> resolve_metric (MName s) = Ok call -> call prms = Ok g ->
  well_formed g /\ independent_of g 0 /\ independent_of g 3 /\ circular g.
Proof. exact FantasySymm5.named_circular. Qed.
Print Assumptions C96_named_metrics_are_circular.

(** for every metric: reversed momentum with reversed step gives the same positions, reversed momenta *)
Theorem C96_momentum_reversal : forall g q0 p0 tl cart kw,
  calculate_trajectory g q0 (negv p0) tl cart (neg_delta kw)
  = mapR (fun t => (fst t, map (fun r : row => (fst r, negv (snd r))) (snd t))) (calculate_trajectory g q0 p0 tl cart kw).
Proof. exact FantasySymm4.trajectory_backward. Qed.
Print Assumptions C96_momentum_reversal.

(** the row-level statement, Cartesian output included *)
Theorem C96_trajectory_rotate : forall g q0 p0 tl cart kw s,
  well_formed g -> independent_of g 3 ->
  calculate_trajectory g (rotate_point false s q0) p0 tl cart kw
  = mapR (fun t => (fst t, map (fun r : row => (rotate_point cart s (fst r), snd r)) (snd t))) (calculate_trajectory g q0 p0 tl cart kw).
Proof. exact FantasySymm4.trajectory_rotate. Qed.
Print Assumptions C96_trajectory_rotate.

(** the row-level statement, Cartesian output included *)
Theorem C96_trajectory_mirror : forall g q0 p0 tl cart kw,
  mirror_program g ->
  calculate_trajectory g (mirror_point false q0) (mirror_momentum p0) tl cart kw
  = mapR (fun t => (fst t, map (fun r : row => (mirror_point cart (fst r), mirror_momentum (snd r))) (snd t))) (calculate_trajectory g q0 p0 tl cart kw).
Proof. exact FantasySymm4.trajectory_mirror. Qed.
Print Assumptions C96_trajectory_mirror.

Example C96_nonvacuous :
  well_formed demo /\ independent_of demo 0 /\ independent_of demo 3 /\ mirror_program demo /\ circular demo /\
  every_metric (MCallable (fun _ => Ok demo)) (fun g => well_formed g /\ independent_of g 3) /\
  every_metric (MCallable (fun _ => Ok demo)) mirror_program /\
  exists o, mk_geodesic (MCallable (fun _ => Ok demo)) [] (2, 1, 0) (0, 1, 2) true true (mkkw 50 (/ 2) (/ 100) (/ 100) 2 1 false) = Ok o.
Proof.
  destruct demo_symmetries as (W & I0 & I3 & M & C). repeat (split; [assumption|]).
  split; [intros call prms g R E; cbn in R; apply Ok_inj in R; subst call; apply Ok_inj in E; subst g; split; assumption|].
  split; [intros call prms g R E; cbn in R; apply Ok_inj in R; subst call; apply Ok_inj in E; subst g; assumption|].
  apply demo_geodesic; cbn; lia.
Qed.

(** C97. [geodesic_on g q p T]: (q, p) solves Hamilton's equations of the metric program g on [0, T]. *)
(** along the exact geodesic the momentum of a coordinate the metric does not mention is constant *)
Theorem C97_exact_constant : forall g q p T k,
  well_formed g -> (k < 4)%nat -> independent_of g k -> geodesic_on g q p T -> forall t, 0 <= t <= T -> q4nth (p t) k = q4nth (p 0) k.
Proof. exact FantasyCyclic.cyclic_constant. Qed.
Print Assumptions C97_exact_constant.

(** C97: every row of the computed trajectory keeps that momentum up to C h^n, n = 2 (4 for order 4) *)
Theorem C97_drift : forall order g w f n (q p : R -> V4) T k,
  integrator_of order (metricfun_of g) w = Ok f -> n = 2%nat \/ (order = 4 /\ n = 4)%nat ->
  well_formed g -> symmetric_program g -> (k < 4)%nat -> independent_of g k -> 0 < T -> geodesic_on g q p T ->
  exists C N0, (0 < N0)%nat /\ forall N tl rtol atol suppress, (N0 <= N)%nat ->
  exists rows, calculate_trajectory g (q 0) (p 0) tl false (mkkw N (T / INR N) rtol atol order w suppress) = Ok (seq 0 N, rows) /\ length rows = N /\
  forall row, In row rows -> Rabs (q4nth (snd row) k - q4nth (p 0) k) <= C * (T / INR N) ^ n.
Proof. exact FantasyCyclic.cyclic_momentum_drift. Qed.
Print Assumptions C97_drift.

Example C97_nonvacuous : well_formed lin_metric /\ symmetric_program lin_metric /\ independent_of lin_metric 0 /\ (forall T, geodesic_on lin_metric lin3_q lin3_p T) /\
  q4nth (lin3_p 0) 0 = 3 /\ (forall t, 0 <= t -> q4nth (lin3_p t) 1 = / (1 + t / 2)) /\ exists f, integrator_of 4 (metricfun_of lin_metric) 1 = Ok f.
Proof.
  split; [exact lin_wf|]. split; [exact lin_sym|]. split; [intros i j Hi Hj; ix i Hi; ix j Hj; reflexivity|]. split; [exact lin3_geodesic_on|].
  split; [reflexivity|]. split; [reflexivity|]. eexists. reflexivity.
Qed.

(** C98. [in_equator c r]: the row r has theta = pi/2 (z = 0 in Cartesian output, c = true) and p_theta = 0. [on_radius c th ph r]: it lies on the ray
    (th, ph) from the centre and has no angular momentum. *)
(** C98: equatorial initial data give equatorial rows, for the built-in metrics *)
Theorem C98_equatorial : forall s prms x1 x3 u1 u3 tl cart kw o,
  In s ["Schwarzschild"; "Kerr"; "KerrNewman"]%string ->
  mk_geodesic (MName s) prms (x1, PI / 2, x3) (u1, 0, u3) tl cart kw = Ok o ->
  geo_position o = mkQ4 0 x1 (PI / 2) x3 /\ c2 (geo_momentum o) = 0 /\ forall r, In r (snd (geo_trajectory o)) -> in_equator cart r.
Proof. exact FantasyPlane.equator_named. Qed.
Print Assumptions C98_equatorial.

Theorem C98_equatorial_any_metric : forall m prms x1 x3 u1 u3 tl cart kw o,
  every_metric m mirror_program ->
  mk_geodesic m prms (x1, PI / 2, x3) (u1, 0, u3) tl cart kw = Ok o ->
  geo_position o = mkQ4 0 x1 (PI / 2) x3 /\ c2 (geo_momentum o) = 0 /\ forall r, In r (snd (geo_trajectory o)) -> in_equator cart r.
Proof. exact FantasyPlane.equator_any. Qed.
Print Assumptions C98_equatorial_any_metric.

(** C98: radial initial data give radial rows in Schwarzschild, along any direction *)
Theorem C98_radial : forall prms x1 x2 x3 u1 tl cart kw o,
  mk_geodesic (MName "Schwarzschild") prms (x1, x2, x3) (u1, 0, 0) tl cart kw = Ok o ->
  forall r, In r (snd (geo_trajectory o)) -> on_radius cart x2 x3 r.
Proof. exact FantasyPlane.radial_schwarzschild. Qed.
Print Assumptions C98_radial.

Theorem C98_radial_any_metric : forall g q0 p0 tl cart kw t,
  radial_block g -> c2 p0 = 0 -> c3 p0 = 0 -> calculate_trajectory g q0 p0 tl cart kw = Ok t ->
  forall r, In r (snd t) -> on_radius cart (c2 q0) (c3 q0) r.
Proof. exact FantasyPlane.radial_any. Qed.
Print Assumptions C98_radial_any_metric.

(** einsteinpy.examples.precession(): 5500 rows in the plane z = 0 *)
Theorem C98_precession_example : forall o,
  precession = Ok o -> length (snd (geo_trajectory o)) = 5500%nat /\ forall r, In r (snd (geo_trajectory o)) -> c3 (fst r) = 0 /\ c2 (snd r) = 0.
Proof. exact FantasyPlane.precession_planar. Qed.
Print Assumptions C98_precession_example.

Example C98_nonvacuous : (exists kw o, mk_geodesic (MName "Schwarzschild") [] (4, PI / 2, 0) (0, 0, 4 / sqrt (4 - 3)) true false kw = Ok o /\ snd (geo_trajectory o) <> [])
  /\ (exists kw o, mk_geodesic (MName "Schwarzschild") [] (4, 1, 2) (4 / (4 - 2), 0, 0) false false kw = Ok o /\ snd (geo_trajectory o) <> []) /\ mirror_program demo /\ radial_block schE.
Proof.
  split; [|split; [|split; [apply demo_symmetries|exact sch_block]]].
  - destruct (circular_schwarzschild 4 2 1 2 1 ltac:(lra) ltac:(cbn; tauto) ltac:(tauto) ltac:(lra)) as (C & N0 & HN & H). destruct (H N0 0 0 false (le_n _)) as (o & E & L & _).
    eexists _, o. split; [exact E|]. destruct (snd (geo_trajectory o)); [cbn in L; lia|discriminate].
  - assert (S1 : sin 1 <> 0) by (apply Rgt_not_eq, sin_gt_0; [lra|assert (H := PI2_3_2); lra]).
    destruct (radial_light 4 1 2 2 1 2 1 ltac:(lra) S1 ltac:(cbn; tauto) ltac:(tauto) ltac:(lra)) as (C & N0 & HN & H). destruct (H N0 0 0 false (le_n _)) as (o & E & L & _).
    eexists _, o. split; [exact E|]. destruct (snd (geo_trajectory o)); [cbn in L; lia|discriminate].
Qed.

(** C99. [hole m prms a Q]: the arguments (m, prms) name the black hole of spin a and charge Q. The orbit has radius [c_r Q u] = u^2 + Q^2 (any r >= Q^2; u > 0
    prograde, u < 0 retrograde), energy [c_E], angular momentum [c_L], angular velocity [c_pd / c_td]; [c_norm] = 1 fixes the scale k for particles, [c_norm] = 0
    is the photon orbit equation. *)
(** C99: particles and light released on a circular orbit stay on it up to C h^n *)
Theorem C99_circular : forall m prms a Q u k tl order w n T,
  hole m prms a Q -> circ_ok a Q u -> 0 <= c_td a Q u k -> c_norm a Q u k = b2R tl ->
  In order [2; 4; 6; 8]%nat -> n = 2%nat \/ (order = 4 /\ n = 4)%nat -> 0 < T ->
  exists C N0, (0 < N0)%nat /\ forall N rtol atol suppress, (N0 <= N)%nat ->
  exists o, mk_geodesic m prms (c_r Q u, PI / 2, 0) (0, 0, c_L a Q u k) tl false (mkkw N (T / INR N) rtol atol order w suppress) = Ok o /\
  geo_momentum o = mkQ4 (- c_E a Q u k) 0 0 (c_L a Q u k) /\ length (snd (geo_trajectory o)) = N /\
  forall j row, nth_error (snd (geo_trajectory o)) j = Some row ->
  Rabs (c0 (fst row) - c_td a Q u k * (INR (S j) * (T / INR N))) <= C * (T / INR N) ^ n /\ Rabs (c1 (fst row) - c_r Q u) <= C * (T / INR N) ^ n /\
  c2 (fst row) = PI / 2 /\ Rabs (c3 (fst row) - c_pd u k * (INR (S j) * (T / INR N))) <= C * (T / INR N) ^ n /\
  Rabs (c0 (snd row) - - c_E a Q u k) <= C * (T / INR N) ^ n /\ Rabs (c1 (snd row)) <= C * (T / INR N) ^ n /\ c2 (snd row) = 0 /\
  Rabs (c3 (snd row) - c_L a Q u k) <= C * (T / INR N) ^ n.
Proof. exact FantasyCircular.circular_orbit. Qed.
Print Assumptions C99_circular.

(** every radius above the photon sphere *)
Theorem C99_schwarzschild : forall r order w n T,
  3 < r -> In order [2; 4; 6; 8]%nat -> n = 2%nat \/ (order = 4 /\ n = 4)%nat -> 0 < T ->
  exists C N0, (0 < N0)%nat /\ forall N rtol atol suppress, (N0 <= N)%nat ->
  exists o, mk_timelike (MName "Schwarzschild") [] (r, PI / 2, 0) (0, 0, r / sqrt (r - 3)) false (mkkw N (T / INR N) rtol atol order w suppress) = Ok o /\
  length (snd (geo_trajectory o)) = N /\
  forall row, In row (snd (geo_trajectory o)) -> Rabs (c1 (fst row) - r) <= C * (T / INR N) ^ n /\ c2 (fst row) = PI / 2.
Proof. exact FantasyCircular.circular_schwarzschild. Qed.
Print Assumptions C99_schwarzschild.

Theorem C99_photon_sphere : forall L order w n T,
  0 < L -> In order [2; 4; 6; 8]%nat -> n = 2%nat \/ (order = 4 /\ n = 4)%nat -> 0 < T ->
  exists C N0, (0 < N0)%nat /\ forall N rtol atol suppress, (N0 <= N)%nat ->
  exists o, mk_nulllike (MName "Schwarzschild") [] (3, PI / 2, 0) (0, 0, L) false (mkkw N (T / INR N) rtol atol order w suppress) = Ok o /\
  length (snd (geo_trajectory o)) = N /\
  forall row, In row (snd (geo_trajectory o)) -> Rabs (c1 (fst row) - 3) <= C * (T / INR N) ^ n /\ c2 (fst row) = PI / 2.
Proof. exact FantasyCircular.photon_sphere. Qed.
Print Assumptions C99_photon_sphere.

(** outgoing light: r = r0 + lambda, t the tortoise coordinate *)
Theorem C99_radial_light : forall r0 th ph order w n T,
  2 < r0 -> sin th <> 0 -> In order [2; 4; 6; 8]%nat -> n = 2%nat \/ (order = 4 /\ n = 4)%nat -> 0 < T ->
  exists C N0, (0 < N0)%nat /\ forall N rtol atol suppress, (N0 <= N)%nat ->
  exists o, mk_nulllike (MName "Schwarzschild") [] (r0, th, ph) (r0 / (r0 - 2), 0, 0) false (mkkw N (T / INR N) rtol atol order w suppress) = Ok o /\
  length (snd (geo_trajectory o)) = N /\
  forall j row, nth_error (snd (geo_trajectory o)) j = Some row ->
  Rabs (c1 (fst row) - (r0 + INR (S j) * (T / INR N))) <= C * (T / INR N) ^ n /\ c2 (fst row) = th /\ c3 (fst row) = ph /\
  Rabs (c0 (fst row) - (INR (S j) * (T / INR N) + 2 * (ln (r0 + INR (S j) * (T / INR N) - 2) - ln (r0 - 2)))) <= C * (T / INR N) ^ n.
Proof. exact FantasyRay.radial_light. Qed.
Print Assumptions C99_radial_light.

(** the circle solves the geodesic equation *)
Theorem C99_exact : forall a Q u k g T,
  circ_ok a Q u -> is_kn g a Q -> geodesic_on g (circ_q a Q u k) (circ_p a Q u k) T.
Proof. exact FantasyCircular.circ_exact. Qed.
Print Assumptions C99_exact.

(** and the built-in metrics are Kerr-Newman metrics *)
Theorem C99_built_in : 
  is_kn schE 0 0 /\ (forall a, is_kn (kerrE a) a 0) /\ (forall a Q, is_kn (kerrnewmanE a Q) a Q).
Proof. exact FantasyCircular.named_is_kn. Qed.
Print Assumptions C99_built_in.

(** non-vacuity: data for every r > 3 *)
Theorem C99_schwarzschild_data : forall r,
  3 < r -> let u := sqrt r in let k := / (r * sqrt (r * (r - 3))) in
  c_r 0 u = r /\ c_L 0 0 u k = r / sqrt (r - 3) /\ c_E 0 0 u k = (r - 2) / sqrt (r * (r - 3)) /\ circ_ok 0 0 u /\ 0 <= c_td 0 0 u k /\ c_norm 0 0 u k = 1.
Proof. exact FantasyCircular.sch_data. Qed.
Print Assumptions C99_schwarzschild_data.

Example C99_nonvacuous : hole (MName "Kerr") [3 / 5] (3 / 5) 0 /\ exists k, circ_ok (3 / 5) 0 3 /\ c_r 0 3 = 9 /\ 0 <= c_td (3 / 5) 0 3 k /\ c_norm (3 / 5) 0 3 k = 1.
Proof.
  split; [right; left; repeat split|]. exists (/ (9 * sqrt (54 + 18 / 5))). assert (S : sqrt (54 + 18 / 5) * sqrt (54 + 18 / 5) = 54 + 18 / 5) by (apply sqrt_sqrt; lra).
  assert (P : 0 < sqrt (54 + 18 / 5)) by (apply sqrt_lt_R0; lra). unfold circ_ok, c_td, c_norm, c_r, DeltaS. split; [split; lra|]. split; [ring|]. split.
  - apply Rmult_le_pos; [|lra]. left. apply Rinv_0_lt_compat. lra.
  - transitivity ((54 + 18 / 5) / (sqrt (54 + 18 / 5) * sqrt (54 + 18 / 5))); [field; lra|]. rewrite S. field.
Qed.
