(* generated from tools/P/P_Motion.v.in by tools/genp.py: statements only, proofs are references *)
(** Properties C105 and C106: the two ways of computing motion in einsteinpy agree.
   Geodesic (einsteinpy.geodesic) integrates Hamilton's equations of the inverse metric program g in units G = c = M = 1;
   f_vec of the metric classes (einsteinpy.metric) gives position, velocity -> velocity, acceleration in SI units, and is what a user passes to RK4naive.
   [is_kn g a Q]: g is a well-formed program whose meaning is the inverse Kerr-Newman metric with spin a and charge Q;
   the named metrics of Geodesic satisfy it (C105_named).  [hamilton g q p t]: q, p obey Hamilton's equations of g at parameter t.
   [si_point c G o q] multiplies q = (t, r, theta, phi) by (GM/c^3, GM/c^2, 1, 1); [si_velocity c G o g q p] does so with the velocity g(q) p.
   [moves f_vec X W t]: at t, X has velocity W(t), f_vec (X t) (W t) returns (W(t), acc), and W has derivative acc.
   [chart a x]: Sigma <> 0, Delta <> 0 and sin theta <> 0 at x.  [same_body]: equal mass and spin values.
   [motion_rhs f_vec]: f_vec as the function of lambda and an 8-vector used by the integrators; [pos], [vel]: halves of an 8-vector, [join] their inverse. *)
From Coq Require Import String Reals List ZArith Lra Lia Bool.
From Coquelicot Require Import Coquelicot.
From Verif Require Import Base Calc DualModel DualSpec DualProofs DualDiff GeoUtilsModel GeoUtilsSpec GeoUtilsProofs GeodesicModel GeodesicProofs CoordModel CoordProofs2 ConvModel ConvProofs
  FantasyModel FantasyProofs FantasyProofs2 FantasyProofs3 FantasyHam FantasyOrder FantasyGlobal FantasyGlobal2 FantasyGlobal3 FantasyCircular ProgCont
  RKModel RKProofs RKOrder RKOrder2 RKGlobal RKGlobal2 RKProg
  MetricModel MetricSpec MetricProofs MetricProofs2 MetricProofs3 MetricProofs4 MetricProofs5 MetricProofs6 MetricProofs7 MetricUnify MetricHamilton MetricHamilton2 MetricRK.
Import ListNotations.
Open Scope R_scope.

(** the metrics Geodesic builds for "Schwarzschild", "Kerr" and "KerrNewman" *)
Theorem C105_named : is_kn schE 0 0 /\ (forall a, is_kn (kerrE a) a 0) /\ (forall a Q, is_kn (kerrnewmanE a Q) a Q).
Proof. split; [exact is_kn_sch|]. split; [exact is_kn_kerr|exact is_kn_kn]. Qed.
Print Assumptions C105_named.
(** Hamilton's equations <-> Schwarzschild.f_vec, at every parameter value of every curve *)
Theorem C105_schwarzschild : forall c G o g q p t,
  0 < c -> 0 < G -> q_val (mo_M o) <> 0 -> mo_sys o = Sph -> is_kn g 0 0 ->
  c1 (q t) <> 0 -> c1 (q t) <> 2 -> sin (c2 (q t)) <> 0 ->
  hamilton g q p t <-> moves (sch_f_vec c G o) (fun u => si_point c G o (q u)) (fun u => si_velocity c G o g (q u) (p u)) t.
Proof. exact MetricHamilton2.sch_iff. Qed.
Print Assumptions C105_schwarzschild.

(** Hamilton's equations <-> KerrNewman.f_vec of an uncharged particle *)
Theorem C105_kerr_newman : forall c G Cc o g q p t,
  0 < c -> 0 < G -> 0 < Cc -> q_val (mo_M o) <> 0 -> mo_sys o = BL -> valid_spin o -> is_kn g (q_val (mo_a o)) 0 ->
  q_val (mo_q o) = 0 -> chart (q_val (mo_a o)) (q t) ->
  hamilton g q p t <-> moves (kn_f_vec c G Cc o) (fun u => si_point c G o (q u)) (fun u => si_velocity c G o g (q u) (p u)) t.
Proof. exact MetricHamilton2.kn_iff. Qed.
Print Assumptions C105_kerr_newman.

(** rows of Geodesic converge to the motion given by f_vec *)
Theorem C105_schwarzschild_trajectory : forall c G o g X W T order w f n,
  0 < c -> 0 < G -> q_val (mo_M o) <> 0 -> mo_sys o = Sph -> is_kn g 0 0 -> 0 < T ->
  (forall t, 0 <= t <= T -> locally t (moves (sch_f_vec c G o) X W)) ->
  integrator_of order (metricfun_of g) w = Ok f -> n = 2%nat \/ (order = 4 /\ n = 4)%nat ->
  exists q0 p0, si_point c G o q0 = X 0 /\ si_velocity c G o g q0 p0 = W 0 /\
  exists C N0, (0 < N0)%nat /\ forall N tl rtol atol suppress, (N0 <= N)%nat ->
  exists rows, calculate_trajectory g q0 p0 tl false (mkkw N (T / INR N) rtol atol order w suppress) = Ok (seq 0 N, rows) /\ length rows = N /\
  forall k row, nth_error rows k = Some row -> forall i, (i < 4)%nat ->
  Rabs (q4nth (si_point c G o (fst row)) i - q4nth (X (INR (S k) * (T / INR N))) i) <= C * (T / INR N) ^ n.
Proof. exact MetricHamilton2.sch_trajectory. Qed.
Print Assumptions C105_schwarzschild_trajectory.

Theorem C105_kerr_newman_trajectory : forall c G Cc o g X W T order w f n,
  0 < c -> 0 < G -> 0 < Cc -> q_val (mo_M o) <> 0 -> mo_sys o = BL -> valid_spin o -> is_kn g (q_val (mo_a o)) 0 ->
  q_val (mo_q o) = 0 -> 0 < T ->
  (forall t, 0 <= t <= T -> locally t (moves (kn_f_vec c G Cc o) X W)) ->
  integrator_of order (metricfun_of g) w = Ok f -> n = 2%nat \/ (order = 4 /\ n = 4)%nat ->
  exists q0 p0, si_point c G o q0 = X 0 /\ si_velocity c G o g q0 p0 = W 0 /\
  exists C N0, (0 < N0)%nat /\ forall N tl rtol atol suppress, (N0 <= N)%nat ->
  exists rows, calculate_trajectory g q0 p0 tl false (mkkw N (T / INR N) rtol atol order w suppress) = Ok (seq 0 N, rows) /\ length rows = N /\
  forall k row, nth_error rows k = Some row -> forall i, (i < 4)%nat ->
  Rabs (q4nth (si_point c G o (fst row)) i - q4nth (X (INR (S k) * (T / INR N))) i) <= C * (T / INR N) ^ n.
Proof. exact MetricHamilton2.kn_trajectory. Qed.
Print Assumptions C105_kerr_newman_trajectory.

(** Kerr.f_vec follows Geodesic's curves exactly where kerr_err times the azimuthal velocity vanishes *)
Theorem C105_kerr_exact : forall c G Cc o g q p t,
  0 < c -> 0 < G -> 0 < Cc -> q_val (mo_M o) <> 0 -> mo_sys o = BL -> valid_spin o -> is_kn g (q_val (mo_a o)) 0 ->
  chart (q_val (mo_a o)) (q t) -> hamilton g q p t ->
  (moves (kerr_f_vec c G Cc o) (fun u => si_point c G o (q u)) (fun u => si_velocity c G o g (q u) (p u)) t
  <-> kerr_err c G o (si_point c G o (q t)) * c3 (si_velocity c G o g (q t) (p t)) = 0).
Proof. exact MetricHamilton2.kerr_exact. Qed.
Print Assumptions C105_kerr_exact.

(** and not along the circular orbit at r = 9 for a = 3/5 *)
Theorem C105_kerr_refuted : forall c G Cc,
  0 < c -> 0 < G -> 0 < Cc ->
  exists o a q p, mo_sys o = BL /\ valid_spin o /\ q_val (mo_M o) <> 0 /\ q_val (mo_a o) = a /\
  (forall T, geodesic_on (kerrE a) q p T) /\ (forall t, chart a (q t)) /\
  forall t, ~ moves (kerr_f_vec c G Cc o) (fun u => si_point c G o (q u)) (fun u => si_velocity c G o (kerrE a) (q u) (p u)) t.
Proof. exact MetricHamilton2.kerr_motion_refuted. Qed.
Print Assumptions C105_kerr_refuted.

(** the circular orbits of C99 obey Schwarzschild.f_vec *)
Theorem C105_circular_orbit : forall c G o,
  0 < c -> 0 < G -> q_val (mo_M o) <> 0 -> mo_sys o = Sph ->
  forall t, moves (sch_f_vec c G o) (fun u => si_point c G o (circ_q 0 0 3 1 u)) (fun u => si_velocity c G o schE (circ_q 0 0 3 1 u) (circ_p 0 0 3 1 u)) t.
Proof. exact MetricRK.circular_moves. Qed.
Print Assumptions C105_circular_orbit.

Example C105_nonvacuous : let o := mkmobj NSchwarzschild Sph (mkqty 1 1 DMass) (mkqty 0 1 DOne) (mkqty 0 1 DCharge) (mkqty 0 1 DOne) in
  let X := fun u => si_point 1 1 o (circ_q 0 0 3 1 u) in let W := fun u => si_velocity 1 1 o schE (circ_q 0 0 3 1 u) (circ_p 0 0 3 1 u) in
  mo_sys o = Sph /\ q_val (mo_M o) <> 0 /\ (forall t, locally t (moves (sch_f_vec 1 1 o) X W)) /\ X 1 <> X 0 /\
  exists f, integrator_of 4 (metricfun_of schE) 1 = Ok f.
Proof.
  cbv zeta. set (o := mkmobj _ _ _ _ _ _). split; [reflexivity|]. split; [unfold o; cbn [mo_M q_val]; lra|]. split.
  { intros t. apply filter_forall. intros u. apply circular_moves; try lra; [unfold o; cbn [mo_M q_val]; lra|reflexivity]. }
  split; [|eexists; reflexivity].
  intros E. apply (f_equal c0) in E. revert E. unfold si_point, scaled, si, grav_radius, circ_q, q4tab, o. cbn [q4nth c0 c1 c2 c3 mo_M q_val].
  unfold c_td, c_r. lra.
Qed.

(** C106: RK4naive on f_vec is within C (T/N)^4 of the motion, for position and velocity *)
Theorem C106_schwarzschild_rk4 : forall c G o X W T,
  0 < c -> 0 < G -> mo_sys o = Sph -> T <> 0 -> (forall t, Rmin 0 T <= t <= Rmax 0 T -> locally t (moves (sch_f_vec c G o) X W)) ->
  exists C N0, (0 < N0)%nat /\ forall N tb k i, (N0 <= N)%nat -> (k <= N)%nat -> (i < 4)%nat ->
  let st := rk4_steps k (rk4_init (motion_rhs (sch_f_vec c G o)) 0 (join (X 0) (W 0)) tb (T / INR N)) in
  rk_t st = INR k * (T / INR N) /\
  Rabs (q4nth (pos (rk_y st)) i - q4nth (X (INR k * (T / INR N))) i) <= C * (Rabs T / INR N) ^ 4 /\
  Rabs (q4nth (vel (rk_y st)) i - q4nth (W (INR k * (T / INR N))) i) <= C * (Rabs T / INR N) ^ 4.
Proof. exact MetricRK.sch_rk4. Qed.
Print Assumptions C106_schwarzschild_rk4.

Theorem C106_kerr_newman_rk4 : forall c G Cc o X W T,
  0 < c -> 0 < G -> 0 < Cc -> mo_sys o = BL -> valid_spin o -> q_val (mo_q o) = 0 -> T <> 0 ->
  (forall t, Rmin 0 T <= t <= Rmax 0 T -> locally t (moves (kn_f_vec c G Cc o) X W)) ->
  exists C N0, (0 < N0)%nat /\ forall N tb k i, (N0 <= N)%nat -> (k <= N)%nat -> (i < 4)%nat ->
  let st := rk4_steps k (rk4_init (motion_rhs (kn_f_vec c G Cc o)) 0 (join (X 0) (W 0)) tb (T / INR N)) in
  rk_t st = INR k * (T / INR N) /\
  Rabs (q4nth (pos (rk_y st)) i - q4nth (X (INR k * (T / INR N))) i) <= C * (Rabs T / INR N) ^ 4 /\
  Rabs (q4nth (vel (rk_y st)) i - q4nth (W (INR k * (T / INR N))) i) <= C * (Rabs T / INR N) ^ 4.
Proof. exact MetricRK.kn_rk4'. Qed.
Print Assumptions C106_kerr_newman_rk4.

(** the rows of Geodesic and the states of RK4naive agree to the order of Geodesic *)
Theorem C106_solvers_agree_schwarzschild : forall c G o g X W T order w f n,
  0 < c -> 0 < G -> q_val (mo_M o) <> 0 -> mo_sys o = Sph -> is_kn g 0 0 -> 0 < T ->
  (forall t, 0 <= t <= T -> locally t (moves (sch_f_vec c G o) X W)) ->
  integrator_of order (metricfun_of g) w = Ok f -> n = 2%nat \/ (order = 4 /\ n = 4)%nat ->
  exists q0 p0, si_point c G o q0 = X 0 /\ si_velocity c G o g q0 p0 = W 0 /\
  exists C N0, (0 < N0)%nat /\ forall N tl rtol atol suppress tb, (N0 <= N)%nat ->
  exists rows, calculate_trajectory g q0 p0 tl false (mkkw N (T / INR N) rtol atol order w suppress) = Ok (seq 0 N, rows) /\ length rows = N /\
  forall k row, nth_error rows k = Some row -> forall i, (i < 4)%nat ->
  Rabs (q4nth (si_point c G o (fst row)) i - q4nth (pos (rk_y (rk4_steps (S k) (rk4_init (motion_rhs (sch_f_vec c G o)) 0 (join (X 0) (W 0)) tb (T / INR N))))) i) <= C * (T / INR N) ^ n.
Proof. exact MetricRK.sch_solvers_agree. Qed.
Print Assumptions C106_solvers_agree_schwarzschild.

Theorem C106_solvers_agree_kerr_newman : forall c G Cc o g X W T order w f n,
  0 < c -> 0 < G -> 0 < Cc -> q_val (mo_M o) <> 0 -> mo_sys o = BL -> valid_spin o -> is_kn g (q_val (mo_a o)) 0 -> q_val (mo_q o) = 0 -> 0 < T ->
  (forall t, 0 <= t <= T -> locally t (moves (kn_f_vec c G Cc o) X W)) ->
  integrator_of order (metricfun_of g) w = Ok f -> n = 2%nat \/ (order = 4 /\ n = 4)%nat ->
  exists q0 p0, si_point c G o q0 = X 0 /\ si_velocity c G o g q0 p0 = W 0 /\
  exists C N0, (0 < N0)%nat /\ forall N tl rtol atol suppress tb, (N0 <= N)%nat ->
  exists rows, calculate_trajectory g q0 p0 tl false (mkkw N (T / INR N) rtol atol order w suppress) = Ok (seq 0 N, rows) /\ length rows = N /\
  forall k row, nth_error rows k = Some row -> forall i, (i < 4)%nat ->
  Rabs (q4nth (si_point c G o (fst row)) i - q4nth (pos (rk_y (rk4_steps (S k) (rk4_init (motion_rhs (kn_f_vec c G Cc o)) 0 (join (X 0) (W 0)) tb (T / INR N))))) i) <= C * (T / INR N) ^ n.
Proof. exact MetricRK.kn_solvers_agree. Qed.
Print Assumptions C106_solvers_agree_kerr_newman.

(** the hypotheses of the C106 theorems hold along the same circular orbit, on every interval *)
Example C106_nonvacuous : let o := mkmobj NSchwarzschild Sph (mkqty 1 1 DMass) (mkqty 0 1 DOne) (mkqty 0 1 DCharge) (mkqty 0 1 DOne) in
  let X := fun u => si_point 1 1 o (circ_q 0 0 3 1 u) in let W := fun u => si_velocity 1 1 o schE (circ_q 0 0 3 1 u) (circ_p 0 0 3 1 u) in
  forall T, T <> 0 -> mo_sys o = Sph /\ is_kn schE 0 0 /\ forall t, Rmin 0 T <= t <= Rmax 0 T -> locally t (moves (sch_f_vec 1 1 o) X W).
Proof.
  cbv zeta. intros T HT. split; [reflexivity|]. split; [exact is_kn_sch|]. intros t _. apply filter_forall. intros u.
  apply circular_moves; try lra; [cbn [mo_M q_val]; lra|reflexivity].
Qed.
