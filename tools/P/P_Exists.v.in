(** Property C107: the initial value problems einsteinpy solves have exactly one solution near the initial point, and its solvers converge to that solution.
   [system n es]: es is a list of n right-hand sides, each a program over t, y_0 .. y_{n-1}; [defined_for n es t y]: evaluating all of them at (t, y) raises no error;
   [program_rhs es] is the Python function computing them; [solves_near n f y t]: y_i' = f(., y)_i on a neighbourhood of t.
   [well_formed g], [symmetric_program g]: g is a 4x4 symmetric table of programs over the four coordinates; [metric_defined g x]: it evaluates without error at x.
   [geodesic_on g q p T]: on [0, T] g evaluates without error along q and (q, p) obeys Hamilton's equations of g on a neighbourhood.
   [calculate_trajectory], [rk4_steps], [rk4_init] model Geodesic.calculate_trajectory (numerical solver) and RK4naive; [sch_f_vec], [kn_f_vec] the equations of motion of the metric classes.
   [moves f_vec X W t]: at t, X has velocity W(t), f_vec (X t) (W t) returns (W(t), acc), and W has derivative acc. *)
From Coq Require Import String Reals List ZArith Lra Lia Bool.
From Coquelicot Require Import Coquelicot.
From Verif Require Import Base Calc DualModel DualSpec DualProofs DualDiff GeoUtilsModel GeoUtilsSpec GeoUtilsProofs GeodesicModel GeodesicProofs CoordModel CoordProofs2 ConvModel ConvProofs
  FantasyModel FantasyProofs FantasyProofs2 FantasyProofs3 FantasyHam FantasyOrder FantasyGlobal FantasyGlobal2 FantasyGlobal3 FantasyCircular ProgCont
  RKModel RKProofs RKOrder RKOrder2 RKGlobal RKGlobal2 RKProg
  MetricModel MetricSpec MetricProofs MetricProofs2 MetricProofs3 MetricProofs4 MetricProofs5 MetricProofs6 MetricProofs7 MetricUnify MetricHamilton MetricHamilton2 MetricRK Picard PicardProg.
Import ListNotations.
Open Scope R_scope.

@thm C107_geodesic PicardProg.geodesic_solved -- every initial datum where the metric evaluates: one geodesic on [0, T], to which the rows of Geodesic converge
@thm C107_geodesic_unique PicardProg.geodesic_unique -- on any interval
@thm C107_rk4 PicardProg.ivp_rk4 -- any system of programs: one solution on [t0 - T, t0 + T], to which RK4naive converges with order 4
@thm C107_solution_unique PicardProg.solution_unique -- on any interval
@thm C107_schwarzschild_motion PicardProg.sch_motion_exists -- wherever f_vec returns a value there is a motion starting there
@thm C107_schwarzschild_motion_unique PicardProg.sch_motion_unique
@thm C107_kerr_newman_motion PicardProg.kn_motion_exists
@thm C107_kerr_newman_motion_unique PicardProg.kn_motion_unique
Example C107_nonvacuous : well_formed schE /\ symmetric_program schE /\ metric_defined schE (q4nth (mkQ4 0 4 (PI / 2) 0)) /\
  system 1 riccati /\ defined_for 1 riccati 0 (fun _ => 1) /\
  exists y, sch_f_vec 1 1 (mkmobj NSchwarzschild Sph (mkqty 1 1 DMass) (mkqty 0 1 DOne) (mkqty 0 1 DCharge) (mkqty 0 1 DOne)) (mkQ4 0 4 (PI / 2) 0) (mkQ4 1 0 0 1) = Ok y.
Proof.
  split; [apply is_kn_sch|]. split; [apply is_kn_sch|]. split.
  { destruct is_kn_sch as (_ & _ & H). apply (H 0 4 (PI / 2) 0); unfold SigmaS, DeltaS; try rewrite sin_PI2; lra. }
  split; [intros i Hi; reflexivity|]. split; [intros i Hi; cbn [riccati defined_at]; tauto|].
  set (os := mkmobj NSchwarzschild _ _ _ _ _).
  assert (E : exists ch, sch_christoffels 1 1 os (mkQ4 0 4 (PI / 2) 0) = Ok ch).
  { apply sch_christoffels_defined. cbn [c1 c2]. rewrite sin_PI2. unfold sch_rad, schwarzschild_radius, os. cbn [prim mo_M q_val mo_sys]. repeat split; lra. }
  destruct E as [ch E]. unfold sch_f_vec. rewrite E. cbn [bindR]. eexists; reflexivity.
Qed.
