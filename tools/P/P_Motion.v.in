(** Properties C105 and C106: the two ways of computing motion in einsteinpy agree.
   Geodesic (einsteinpy.geodesic) integrates Hamilton's equations of the inverse metric program g in units G = c = M = 1;
   f_vec of the metric classes (einsteinpy.metric) gives position, velocity -> velocity, acceleration in SI units, and is what a user passes to RK4naive.
   [is_kn g a Q]: g is a well-formed program whose meaning is the inverse Kerr-Newman metric with spin a and charge Q;
   the named metrics of Geodesic satisfy it (C105_named).  [hamilton g q p t]: q, p obey Hamilton's equations of g at parameter t.
   [si_point c G o q] multiplies q = (t, r, theta, phi) by (GM/c^3, GM/c^2, 1, 1); [si_velocity c G o g q p] does so with the velocity g(q) p.
   [moves f_vec X W t]: at t, X has velocity W(t), f_vec (X t) (W t) returns (W(t), acc), and W has derivative acc.
   [chart a x]: Sigma <> 0, Delta <> 0 and sin theta <> 0 at x.  [same_body]: equal mass and spin values.
   [motion_rhs f_vec]: f_vec as the function of lambda and an 8-vector used by the integrators; [pos], [vel]: halves of an 8-vector, [join] their inverse. *)
From Coq Require Import String Reals List ZArith Lra Lia Bool.
From Coquelicot Require Import Coquelicot.
From Verif Require Import Base Calc DualModel DualSpec DualProofs DualDiff GeoUtilsModel GeoUtilsSpec GeoUtilsProofs GeodesicModel GeodesicProofs CoordModel CoordProofs2 ConvModel ConvProofs
  FantasyModel FantasyProofs FantasyProofs2 FantasyProofs3 FantasyHam FantasyOrder FantasyGlobal FantasyGlobal2 FantasyGlobal3 FantasyCircular ProgCont
  RKModel RKProofs RKOrder RKOrder2 RKGlobal RKGlobal2 RKProg
  MetricModel MetricSpec MetricProofs MetricProofs2 MetricProofs3 MetricProofs4 MetricProofs5 MetricProofs6 MetricProofs7 MetricUnify MetricHamilton MetricHamilton2 MetricRK.
Import ListNotations.
Open Scope R_scope.

(** the metrics Geodesic builds for "Schwarzschild", "Kerr" and "KerrNewman" *)
Theorem C105_named : is_kn schE 0 0 /\ (forall a, is_kn (kerrE a) a 0) /\ (forall a Q, is_kn (kerrnewmanE a Q) a Q).
Proof. split; [exact is_kn_sch|]. split; [exact is_kn_kerr|exact is_kn_kn]. Qed.
Print Assumptions C105_named.
@thm C105_schwarzschild MetricHamilton2.sch_iff -- Hamilton's equations <-> Schwarzschild.f_vec, at every parameter value of every curve
@thm C105_kerr_newman MetricHamilton2.kn_iff -- Hamilton's equations <-> KerrNewman.f_vec of an uncharged particle
@thm C105_schwarzschild_trajectory MetricHamilton2.sch_trajectory -- rows of Geodesic converge to the motion given by f_vec
@thm C105_kerr_newman_trajectory MetricHamilton2.kn_trajectory
@thm C105_kerr_exact MetricHamilton2.kerr_exact -- Kerr.f_vec follows Geodesic's curves exactly where kerr_err times the azimuthal velocity vanishes
@thm C105_kerr_refuted MetricHamilton2.kerr_motion_refuted -- and not along the circular orbit at r = 9 for a = 3/5
@thm C105_circular_orbit MetricRK.circular_moves -- the circular orbits of C99 obey Schwarzschild.f_vec
Example C105_nonvacuous : let o := mkmobj NSchwarzschild Sph (mkqty 1 1 DMass) (mkqty 0 1 DOne) (mkqty 0 1 DCharge) (mkqty 0 1 DOne) in
  let X := fun u => si_point 1 1 o (circ_q 0 0 3 1 u) in let W := fun u => si_velocity 1 1 o schE (circ_q 0 0 3 1 u) (circ_p 0 0 3 1 u) in
  mo_sys o = Sph /\ q_val (mo_M o) <> 0 /\ (forall t, locally t (moves (sch_f_vec 1 1 o) X W)) /\ X 1 <> X 0 /\
  exists f, integrator_of 4 (metricfun_of schE) 1 = Ok f.
Proof.
  cbv zeta. set (o := mkmobj _ _ _ _ _ _). split; [reflexivity|]. split; [unfold o; cbn [mo_M q_val]; lra|]. split.
  { intros t. apply filter_forall. intros u. apply circular_moves; try lra; [unfold o; cbn [mo_M q_val]; lra|reflexivity]. }
  split; [|eexists; reflexivity].
  intros E. apply (f_equal c0) in E. revert E. unfold si_point, scaled, si, grav_radius, circ_q, q4tab, o. cbn [q4nth c0 c1 c2 c3 mo_M q_val].
  unfold c_td, c_r. lra.
Qed.

@thm C106_schwarzschild_rk4 MetricRK.sch_rk4 -- C106: RK4naive on f_vec is within C (T/N)^4 of the motion, for position and velocity
@thm C106_kerr_newman_rk4 MetricRK.kn_rk4'
@thm C106_solvers_agree_schwarzschild MetricRK.sch_solvers_agree -- the rows of Geodesic and the states of RK4naive agree to the order of Geodesic
@thm C106_solvers_agree_kerr_newman MetricRK.kn_solvers_agree
(** the hypotheses of the C106 theorems hold along the same circular orbit, on every interval *)
Example C106_nonvacuous : let o := mkmobj NSchwarzschild Sph (mkqty 1 1 DMass) (mkqty 0 1 DOne) (mkqty 0 1 DCharge) (mkqty 0 1 DOne) in
  let X := fun u => si_point 1 1 o (circ_q 0 0 3 1 u) in let W := fun u => si_velocity 1 1 o schE (circ_q 0 0 3 1 u) (circ_p 0 0 3 1 u) in
  forall T, T <> 0 -> mo_sys o = Sph /\ is_kn schE 0 0 /\ forall t, Rmin 0 T <= t <= Rmax 0 T -> locally t (moves (sch_f_vec 1 1 o) X W).
Proof.
  cbv zeta. intros T HT. split; [reflexivity|]. split; [exact is_kn_sch|]. intros t _. apply filter_forall. intros u.
  apply circular_moves; try lra; [cbn [mo_M q_val]; lra|reflexivity].
Qed.
