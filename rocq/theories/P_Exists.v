(* generated from tools/P/P_Exists.v.in by tools/genp.py: statements only, proofs are references *)
(** Property C107: the initial value problems einsteinpy solves have exactly one solution near the initial point, and its solvers converge to that solution.
   [system n es]: es is a list of n right-hand sides, each a program over t, y_0 .. y_{n-1}; [defined_for n es t y]: evaluating all of them at (t, y) raises no error;
   [program_rhs es] is the Python function computing them; [solves_near n f y t]: y_i' = f(., y)_i on a neighbourhood of t.
   [well_formed g], [symmetric_program g]: g is a 4x4 symmetric table of programs over the four coordinates; [metric_defined g x]: it evaluates without error at x.
   [geodesic_on g q p T]: on [0, T] g evaluates without error along q and (q, p) obeys Hamilton's equations of g on a neighbourhood.
   [calculate_trajectory], [rk4_steps], [rk4_init] model Geodesic.calculate_trajectory (numerical solver) and RK4naive; [sch_f_vec], [kn_f_vec] the equations of motion of the metric classes.
   [moves f_vec X W t]: at t, X has velocity W(t), f_vec (X t) (W t) returns (W(t), acc), and W has derivative acc. *)
From Coq Require Import String Reals List ZArith Lra Lia Bool.
From Coquelicot Require Import Coquelicot.
From Verif Require Import Base Calc DualModel DualSpec DualProofs DualDiff GeoUtilsModel GeoUtilsSpec GeoUtilsProofs GeodesicModel GeodesicProofs CoordModel CoordProofs2 ConvModel ConvProofs
  FantasyModel FantasyProofs FantasyProofs2 FantasyProofs3 FantasyHam FantasyOrder FantasyGlobal FantasyGlobal2 FantasyGlobal3 FantasyCircular ProgCont
  RKModel RKProofs RKOrder RKOrder2 RKGlobal RKGlobal2 RKProg
  MetricModel MetricSpec MetricProofs MetricProofs2 MetricProofs3 MetricProofs4 MetricProofs5 MetricProofs6 MetricProofs7 MetricUnify MetricHamilton MetricHamilton2 MetricRK Picard PicardProg.
Import ListNotations.
Open Scope R_scope.

(** every initial datum where the metric evaluates: one geodesic on [0, T], to which the rows of Geodesic converge *)
Theorem C107_geodesic : forall g q0 p0,
  well_formed g -> symmetric_program g -> metric_defined g (q4nth q0) ->
  exists T q p, 0 < T /\ q 0 = q0 /\ p 0 = p0 /\ geodesic_on g q p T /\
  (forall q' p', geodesic_on g q' p' T -> q' 0 = q0 -> p' 0 = p0 -> forall t, 0 <= t <= T -> q' t = q t /\ p' t = p t) /\
  forall U order w f n, 0 < U <= T -> integrator_of order (metricfun_of g) w = Ok f -> n = 2%nat \/ (order = 4 /\ n = 4)%nat ->
  exists C N0, (0 < N0)%nat /\ forall N tl rtol atol suppress, (N0 <= N)%nat ->
  exists rows, calculate_trajectory g q0 p0 tl false (mkkw N (U / INR N) rtol atol order w suppress) = Ok (seq 0 N, rows) /\ length rows = N /\
  forall k row, nth_error rows k = Some row -> forall i, (i < 4)%nat ->
  Rabs (q4nth (fst row) i - q4nth (q (INR (S k) * (U / INR N))) i) <= C * (U / INR N) ^ n /\
  Rabs (q4nth (snd row) i - q4nth (p (INR (S k) * (U / INR N))) i) <= C * (U / INR N) ^ n.
Proof. exact PicardProg.geodesic_solved. Qed.
Print Assumptions C107_geodesic.

(** on any interval *)
Theorem C107_geodesic_unique : forall g q p q' p' T,
  well_formed g -> symmetric_program g -> geodesic_on g q p T -> geodesic_on g q' p' T -> q 0 = q' 0 -> p 0 = p' 0 ->
  forall t, 0 <= t <= T -> q t = q' t /\ p t = p' t.
Proof. exact PicardProg.geodesic_unique. Qed.
Print Assumptions C107_geodesic_unique.

(** any system of programs: one solution on [t0 - T, t0 + T], to which RK4naive converges with order 4 *)
Theorem C107_rk4 : forall n es t0 y0,
  system n es -> defined_for n es t0 y0 ->
  exists T y, 0 < T /\ y t0 = y0 /\ (forall t, Rabs (t - t0) <= T -> defined_for n es t (y t) /\ solves_near n (program_rhs es) y t) /\
  (forall y', y' t0 = y0 -> (forall t, Rabs (t - t0) <= T -> defined_for n es t (y' t) /\ solves_near n (program_rhs es) y' t) -> forall t i, Rabs (t - t0) <= T -> (i < n)%nat -> y' t i = y t i) /\
  forall U, U <> 0 -> Rabs U <= T -> exists C N0, (0 < N0)%nat /\ forall N tb k i, (N0 <= N)%nat -> (k <= N)%nat -> (i < n)%nat ->
  let st := rk4_steps k (rk4_init (program_rhs es) t0 y0 tb (U / INR N)) in
  rk_t st = t0 + INR k * (U / INR N) /\ Rabs (rk_y st i - y (t0 + INR k * (U / INR N)) i) <= C * (Rabs U / INR N) ^ 4.
Proof. exact PicardProg.ivp_rk4. Qed.
Print Assumptions C107_rk4.

(** on any interval *)
Theorem C107_solution_unique : forall n es y y' t0 t,
  system n es -> (forall i, (i < n)%nat -> y t0 i = y' t0 i) ->
  (forall u, Rmin t0 t <= u <= Rmax t0 t -> (defined_for n es u (y u) /\ solves_near n (program_rhs es) y u) /\ (defined_for n es u (y' u) /\ solves_near n (program_rhs es) y' u)) ->
  forall i, (i < n)%nat -> y t i = y' t i.
Proof. exact PicardProg.solution_unique. Qed.
Print Assumptions C107_solution_unique.

(** wherever f_vec returns a value there is a motion starting there *)
Theorem C107_schwarzschild_motion : forall c G o x v y0,
  0 < c -> 0 < G -> mo_sys o = Sph -> sch_f_vec c G o x v = Ok y0 ->
  exists T X W, 0 < T /\ X 0 = x /\ W 0 = v /\ forall t, Rabs t <= T -> locally t (moves (sch_f_vec c G o) X W).
Proof. exact PicardProg.sch_motion_exists. Qed.
Print Assumptions C107_schwarzschild_motion.

Theorem C107_schwarzschild_motion_unique : forall c G o X W X' W' t,
  0 < c -> 0 < G -> mo_sys o = Sph -> X 0 = X' 0 -> W 0 = W' 0 ->
  (forall u, Rmin 0 t <= u <= Rmax 0 t -> locally u (moves (sch_f_vec c G o) X W) /\ locally u (moves (sch_f_vec c G o) X' W')) -> X t = X' t /\ W t = W' t.
Proof. exact PicardProg.sch_motion_unique. Qed.
Print Assumptions C107_schwarzschild_motion_unique.

Theorem C107_kerr_newman_motion : forall c G Cc o x v y0,
  0 < c -> 0 < G -> 0 < Cc -> mo_sys o = BL -> valid_spin o -> q_val (mo_q o) = 0 -> kn_f_vec c G Cc o x v = Ok y0 ->
  exists T X W, 0 < T /\ X 0 = x /\ W 0 = v /\ forall t, Rabs t <= T -> locally t (moves (kn_f_vec c G Cc o) X W).
Proof. exact PicardProg.kn_motion_exists. Qed.
Print Assumptions C107_kerr_newman_motion.

Theorem C107_kerr_newman_motion_unique : forall c G Cc o X W X' W' t,
  0 < c -> 0 < G -> 0 < Cc -> mo_sys o = BL -> valid_spin o -> q_val (mo_q o) = 0 -> X 0 = X' 0 -> W 0 = W' 0 ->
  (forall u, Rmin 0 t <= u <= Rmax 0 t -> locally u (moves (kn_f_vec c G Cc o) X W) /\ locally u (moves (kn_f_vec c G Cc o) X' W')) -> X t = X' t /\ W t = W' t.
Proof. exact PicardProg.kn_motion_unique. Qed.
Print Assumptions C107_kerr_newman_motion_unique.

Example C107_nonvacuous : well_formed schE /\ symmetric_program schE /\ metric_defined schE (q4nth (mkQ4 0 4 (PI / 2) 0)) /\
  system 1 riccati /\ defined_for 1 riccati 0 (fun _ => 1) /\
  exists y, sch_f_vec 1 1 (mkmobj NSchwarzschild Sph (mkqty 1 1 DMass) (mkqty 0 1 DOne) (mkqty 0 1 DCharge) (mkqty 0 1 DOne)) (mkQ4 0 4 (PI / 2) 0) (mkQ4 1 0 0 1) = Ok y.
Proof.
  split; [apply is_kn_sch|]. split; [apply is_kn_sch|]. split.
  { destruct is_kn_sch as (_ & _ & H). apply (H 0 4 (PI / 2) 0); unfold SigmaS, DeltaS; try rewrite sin_PI2; lra. }
  split; [intros i Hi; reflexivity|]. split; [intros i Hi; cbn [riccati defined_at]; tauto|].
  set (os := mkmobj NSchwarzschild _ _ _ _ _).
  assert (E : exists ch, sch_christoffels 1 1 os (mkQ4 0 4 (PI / 2) 0) = Ok ch).
  { apply sch_christoffels_defined. cbn [c1 c2]. rewrite sin_PI2. unfold sch_rad, schwarzschild_radius, os. cbn [prim mo_M q_val mo_sys]. repeat split; lra. }
  destruct E as [ch E]. unfold sch_f_vec. rewrite E. cbn [bindR]. eexists; reflexivity.
Qed.
