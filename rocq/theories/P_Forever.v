(* generated from tools/P/P_Forever.v.in by tools/genp.py: statements only, proofs are references *)
(** Property C132: one orbit for all parameter values, the only one, and what becomes of it.
   Vocabulary as in P_Orbit.v and P_Fate.v. [orbit_of g q0 p0 q p]: (q, p) is a geodesic of g on [0, T] for every T, starting at (q0, p0). [motion_of f x w X W]: (X, W) solves the equations of motion that the method f computes, on all of [0, oo), starting at position x with 4-velocity w.
   [runs_off r]: for every B there is an s such that r t > B for all t >= s.
   [reaches_accuracy s prms .. q p T]: for every eps there is a step h0, and for every h <= h0 a number of bits, so that in every IEEE format of at least as many bits, with a libm accurate to 4 ulp, the N rows of Geodesic(s, ..) with N h <= T are within eps of (q, p). [flow_reaches_accuracy]: the same of velocity(metric) followed by RK4naive steps of f_vec, with numpy.linalg.inv eliminating in the same arithmetic and inputs correct to Kin units of roundoff. *)
From Coq Require Import String Reals List ZArith Lra Lia Bool.
From Coquelicot Require Import Coquelicot.
From Verif Require Import Base Calc DualModel DualSpec DualProofs DualDiff GeoUtilsModel GeoUtilsSpec GeoUtilsProofs GeodesicModel GeodesicProofs CoordModel ConvModel ConvProofs
  FantasyModel FantasyProofs FantasyProofs2 FantasyProofs3 FantasyHam FantasyOrder FantasyGlobal FantasyGlobal2 FantasyGlobal3 FantasyShell FantasyCyclic FantasyCircular FloatModel FloatGlobal FloatTraj FantasyCarter
  ConvProofs2 MetricModel MetricSpec MetricProofs MetricProofs2 MetricProofs3 MetricProofs5 MetricProofs6 MetricProofs7 MetricProofs8 MetricUnify MetricHamilton MetricHamilton2 MetricCarter FloatTrack FloatRK FloatRKG FloatMetricModel FloatMetric FloatMetric2 FloatMetric6 FloatVel FloatFlow FloatInv
  Contin Leave GlobalHole GlobalHole2 GlobalMotion GlobalOrbit Fate Scatter FateOrbit FateOrbit2 FateSI FateFlow Glue Forever ForeverSI P_Fate FloatIEEE FloatTraj FloatLU FloatMetric8 Precision.
Import ListNotations.
Open Scope R_scope.

(** two orbits of a named black hole from the same point and momentum are the same *)
Theorem C132_orbit_unique : forall s prms g a Q q0 p0, named_bh s prms g a Q ->
  forall q p q' p',
  orbit_of g q0 p0 q p -> orbit_of g q0 p0 q' p' -> forall t, 0 <= t -> q t = q' t /\ p t = p' t.
Proof. exact Forever.orbit_unique. Qed.
Print Assumptions C132_orbit_unique.

(** a barrier inside: the orbit exists for ever, outside r1 and off the axis *)
Theorem C132_barred : forall s prms g a Q q0 p0, named_bh s prms g a Q ->
  forall r1,
  barred g a Q r1 q0 p0 -> exists q p, orbit_of g q0 p0 q p /\ forall t, 0 <= t -> r1 < c1 (q t) /\ 0 < c2 (q t) < PI.
Proof. exact Forever.barred_forever. Qed.
Print Assumptions C132_barred.

(** outwards, no turning point ahead, energy above the rest energy: r increases strictly, at least linearly, beyond every bound *)
Theorem C132_escapes : forall s prms g a Q q0 p0, named_bh s prms g a Q ->
  forall r1,
  exterior a Q r1 q0 p0 -> 0 < c1 p0 -> (forall r, c1 q0 <= r -> 0 < potential g a Q q0 p0 r) -> 0 < c0 p0 * c0 p0 + 2 * Ham g q0 p0 ->
  exists q p, orbit_of g q0 p0 q p /\ (forall t u, 0 <= t < u -> c1 (q t) < c1 (q u)) /\ (exists k, 0 < k /\ forall t, 0 <= t -> c1 q0 + k * t <= c1 (q t)) /\ runs_off (fun t => c1 (q t)).
Proof. exact Forever.escapes_forever. Qed.
Print Assumptions C132_escapes.

(** inwards to the turning point, at one finite parameter value, then outwards for ever beyond every bound *)
Theorem C132_flyby : forall s prms g a Q q0 p0, named_bh s prms g a Q ->
  forall r1 rt,
  barred g a Q r1 q0 p0 -> c1 p0 < 0 -> rt < c1 q0 -> turning_point (potential g a Q q0 p0) rt -> 0 < c0 p0 * c0 p0 + 2 * Ham g q0 p0 ->
  exists q p x, orbit_of g q0 p0 q p /\ 0 < x /\ c1 (q x) = rt /\ (forall t u, 0 <= t < u -> u <= x -> c1 (q u) < c1 (q t)) /\ (forall t u, x <= t < u -> c1 (q t) < c1 (q u)) /\ runs_off (fun t => c1 (q t)).
Proof. exact Forever.flyby_forever. Qed.
Print Assumptions C132_flyby.

(** energy below the rest energy: between two radii for ever *)
Theorem C132_bound : forall s prms g a Q q0 p0, named_bh s prms g a Q ->
  forall r1,
  barred g a Q r1 q0 p0 -> c0 p0 * c0 p0 + 2 * Ham g q0 p0 < 0 ->
  exists q p r2, orbit_of g q0 p0 q p /\ forall t, 0 <= t -> r1 < c1 (q t) < r2 /\ 0 < c2 (q t) < PI.
Proof. exact Forever.bound_forever. Qed.
Print Assumptions C132_bound.

(** Geodesic(name, ..): the computed rows follow that one orbit over every interval, in every arithmetic *)
Theorem C132_rows : forall s prms g a Q cov out x1 x2 x3 u1 u2 u3 tl order w n r1, named_bh s prms g a Q -> book s prms cov out -> out x1 x2 -> In order [2; 4; 6; 8]%nat -> n = 2%nat \/ (order = 4 /\ n = 4)%nat -> released a Q r1 x1 x2 u3 ->
  
  exists guu E, inverse_of guu (cov x1 x2) /\ on_shell_future guu (mkQ4 (- E) u1 u2 u3) u1 u2 u3 tl /\
  forall q p, orbit_of g (mkQ4 0 x1 x2 x3) (mkQ4 (- E) u1 u2 u3) q p -> forall T, 0 < T -> rows_follow s prms x1 x2 x3 u1 u2 u3 tl order w n q p T.
Proof. exact Forever.orbit_rows. Qed.
Print Assumptions C132_rows.

Theorem C132_geodesic_barred : forall s prms g a Q cov out x1 x2 x3 u1 u2 u3 tl order w n r1, named_bh s prms g a Q -> book s prms cov out -> out x1 x2 -> In order [2; 4; 6; 8]%nat -> n = 2%nat \/ (order = 4 /\ n = 4)%nat -> released a Q r1 x1 x2 u3 ->
  
  (forall guu E, inverse_of guu (cov x1 x2) -> on_shell_future guu (mkQ4 (- E) u1 u2 u3) u1 u2 u3 tl -> pot a Q x2 E u2 u3 tl r1 < 0) ->
  exists guu E q p, inverse_of guu (cov x1 x2) /\ on_shell_future guu (mkQ4 (- E) u1 u2 u3) u1 u2 u3 tl /\ orbit_of g (mkQ4 0 x1 x2 x3) (mkQ4 (- E) u1 u2 u3) q p /\
  (forall t, 0 <= t -> r1 < c1 (q t)) /\ forall T, 0 < T -> rows_follow s prms x1 x2 x3 u1 u2 u3 tl order w n q p T.
Proof. exact Forever.geodesic_barred_forever. Qed.
Print Assumptions C132_geodesic_barred.

Theorem C132_geodesic_escapes : forall s prms g a Q cov out x1 x2 x3 u1 u2 u3 tl order w n r1, named_bh s prms g a Q -> book s prms cov out -> out x1 x2 -> In order [2; 4; 6; 8]%nat -> n = 2%nat \/ (order = 4 /\ n = 4)%nat -> released a Q r1 x1 x2 u3 ->
  
  0 < u1 ->
  (forall guu E, inverse_of guu (cov x1 x2) -> on_shell_future guu (mkQ4 (- E) u1 u2 u3) u1 u2 u3 tl -> (if tl then 1 else 0) < E * E /\ forall r, x1 <= r -> 0 < pot a Q x2 E u2 u3 tl r) ->
  exists guu E q p, inverse_of guu (cov x1 x2) /\ on_shell_future guu (mkQ4 (- E) u1 u2 u3) u1 u2 u3 tl /\ orbit_of g (mkQ4 0 x1 x2 x3) (mkQ4 (- E) u1 u2 u3) q p /\
  (forall t u, 0 <= t < u -> c1 (q t) < c1 (q u)) /\ runs_off (fun t => c1 (q t)) /\ forall T, 0 < T -> rows_follow s prms x1 x2 x3 u1 u2 u3 tl order w n q p T.
Proof. exact Forever.geodesic_escapes_forever. Qed.
Print Assumptions C132_geodesic_escapes.

Theorem C132_geodesic_flyby : forall s prms g a Q cov out x1 x2 x3 u1 u2 u3 tl order w n r1, named_bh s prms g a Q -> book s prms cov out -> out x1 x2 -> In order [2; 4; 6; 8]%nat -> n = 2%nat \/ (order = 4 /\ n = 4)%nat -> released a Q r1 x1 x2 u3 ->
  
  u1 < 0 -> forall rt, rt < x1 ->
  (forall guu E, inverse_of guu (cov x1 x2) -> on_shell_future guu (mkQ4 (- E) u1 u2 u3) u1 u2 u3 tl ->
  (if tl then 1 else 0) < E * E /\ pot a Q x2 E u2 u3 tl r1 < 0 /\ turning_point (pot a Q x2 E u2 u3 tl) rt) ->
  exists guu E q p x, inverse_of guu (cov x1 x2) /\ on_shell_future guu (mkQ4 (- E) u1 u2 u3) u1 u2 u3 tl /\ orbit_of g (mkQ4 0 x1 x2 x3) (mkQ4 (- E) u1 u2 u3) q p /\
  0 < x /\ c1 (q x) = rt /\ (forall t u, 0 <= t < u -> u <= x -> c1 (q u) < c1 (q t)) /\ (forall t u, x <= t < u -> c1 (q t) < c1 (q u)) /\ runs_off (fun t => c1 (q t)) /\
  forall T, 0 < T -> rows_follow s prms x1 x2 x3 u1 u2 u3 tl order w n q p T.
Proof. exact Forever.geodesic_flyby_forever. Qed.
Print Assumptions C132_geodesic_flyby.

Theorem C132_geodesic_bound : forall s prms g a Q cov out x1 x2 x3 u1 u2 u3 tl order w n r1, named_bh s prms g a Q -> book s prms cov out -> out x1 x2 -> In order [2; 4; 6; 8]%nat -> n = 2%nat \/ (order = 4 /\ n = 4)%nat -> released a Q r1 x1 x2 u3 ->
  
  tl = true ->
  (forall guu E, inverse_of guu (cov x1 x2) -> on_shell_future guu (mkQ4 (- E) u1 u2 u3) u1 u2 u3 tl -> E * E < 1 /\ pot a Q x2 E u2 u3 tl r1 < 0) ->
  exists guu E q p r2, inverse_of guu (cov x1 x2) /\ on_shell_future guu (mkQ4 (- E) u1 u2 u3) u1 u2 u3 tl /\ orbit_of g (mkQ4 0 x1 x2 x3) (mkQ4 (- E) u1 u2 u3) q p /\
  (forall t, 0 <= t -> r1 < c1 (q t) < r2) /\ forall T, 0 < T -> rows_follow s prms x1 x2 x3 u1 u2 u3 tl order w n q p T.
Proof. exact Forever.geodesic_bound_forever. Qed.
Print Assumptions C132_geodesic_bound.

(** KerrNewman.f_vec, SI, any charges *)
Theorem C132_kerr_newman_unique : forall c G Cc o, 0 < c -> 0 < G -> 0 < Cc ->
  forall x w X W X' W',
  motion_of (kn_f_vec c G Cc o) x w X W -> motion_of (kn_f_vec c G Cc o) x w X' W' -> forall t, 0 <= t -> X t = X' t /\ W t = W' t.
Proof. exact ForeverSI.kn_motion_of_unique. Qed.
Print Assumptions C132_kerr_newman_unique.

(** position and velocity in: the RK4 rows follow the motion over every interval of proper time, in every arithmetic *)
Theorem C132_kerr_newman_rows : forall c G Cc o, 0 < c -> 0 < G -> 0 < Cc ->
  forall K Kin x v g,
  0 <= K -> 0 <= Kin -> MetricModel.kn_cov c G Cc o (si_position c x) = Ok g -> 0 < mnth g 0 0 -> sin (c2 x) <> 0 -> norm2 g (four_vel 0 v) < c ^ 2 ->
  exists w, timelike_lift c g v w /\ forall X W, motion_of (kn_f_vec c G Cc o) (si_position c x) (four_vel w v) X W ->
  forall T, 0 < T -> flow_rounded K Kin c (fun e => kn_covA e c G Cc o) (fun e => kn_fA e c G Cc o) x v X W T.
Proof. exact ForeverSI.kn_motion_of_rows. Qed.
Print Assumptions C132_kerr_newman_rows.

Theorem C132_kerr_newman_barred : forall c G Cc o, 0 < c -> 0 < G -> 0 < Cc -> 0 < q_val (mo_M o) -> mo_sys o = BL -> valid_spin o -> q_val (mo_q o) = 0 ->
  forall x h w r1,
  MetricModel.kn_cov c G Cc o x = Ok h -> barred_si c (sch_rad c G o) (al_of c G o) r1 x h w ->
  exists X W, motion_of (kn_f_vec c G Cc o) x w X W /\ forall t, 0 <= t -> r1 < c1 (X t) /\ 0 < c2 (X t) < PI.
Proof. exact ForeverSI.kn_barred_forever. Qed.
Print Assumptions C132_kerr_newman_barred.

Theorem C132_kerr_newman_escapes : forall c G Cc o, 0 < c -> 0 < G -> 0 < Cc -> 0 < q_val (mo_M o) -> mo_sys o = BL -> valid_spin o -> q_val (mo_q o) = 0 ->
  forall x h w r1,
  MetricModel.kn_cov c G Cc o x = Ok h -> exterior_si (sch_rad c G o) (al_of c G o) r1 x h w -> 0 < c1 w ->
  (forall r, c1 x <= r -> 0 < radial_si c (sch_rad c G o) (al_of c G o) x h w r) -> ConvProofs2.norm2 h w < (FloatInv.low 0 h w / c) * (FloatInv.low 0 h w / c) ->
  exists k X W, 0 < k /\ motion_of (kn_f_vec c G Cc o) x w X W /\ (forall t, 0 <= t -> c1 x + k * t <= c1 (X t)) /\ runs_off (fun t => c1 (X t)).
Proof. exact ForeverSI.kn_escapes_forever. Qed.
Print Assumptions C132_kerr_newman_escapes.

Theorem C132_kerr_newman_scattered : forall c G Cc o, 0 < c -> 0 < G -> 0 < Cc -> 0 < q_val (mo_M o) -> mo_sys o = BL -> valid_spin o -> q_val (mo_q o) = 0 ->
  forall x h w r1 rt,
  MetricModel.kn_cov c G Cc o x = Ok h -> barred_si c (sch_rad c G o) (al_of c G o) r1 x h w -> c1 w < 0 -> rt < c1 x ->
  turning_point (radial_si c (sch_rad c G o) (al_of c G o) x h w) rt -> ConvProofs2.norm2 h w < (FloatInv.low 0 h w / c) * (FloatInv.low 0 h w / c) ->
  exists s X W, 0 < s /\ motion_of (kn_f_vec c G Cc o) x w X W /\ c1 (X s) = rt /\
  (forall t u, 0 <= t < u -> u <= s -> c1 (X u) < c1 (X t)) /\ (forall t u, s <= t < u -> c1 (X t) < c1 (X u)) /\ runs_off (fun t => c1 (X t)).
Proof. exact ForeverSI.kn_scattered_forever. Qed.
Print Assumptions C132_kerr_newman_scattered.

Theorem C132_kerr_newman_bound : forall c G Cc o, 0 < c -> 0 < G -> 0 < Cc -> 0 < q_val (mo_M o) -> mo_sys o = BL -> valid_spin o -> q_val (mo_q o) = 0 ->
  forall x h w r1,
  MetricModel.kn_cov c G Cc o x = Ok h -> barred_si c (sch_rad c G o) (al_of c G o) r1 x h w -> (FloatInv.low 0 h w / c) * (FloatInv.low 0 h w / c) < ConvProofs2.norm2 h w ->
  exists r2 X W, motion_of (kn_f_vec c G Cc o) x w X W /\ forall t, 0 <= t -> r1 < c1 (X t) < r2.
Proof. exact ForeverSI.kn_bound_forever. Qed.
Print Assumptions C132_kerr_newman_bound.

Theorem C132_schwarzschild_unique : forall c G o, 0 < c -> 0 < G -> mo_sys o = Sph ->
  forall x w X W X' W',
  motion_of (sch_f_vec c G o) x w X W -> motion_of (sch_f_vec c G o) x w X' W' -> forall t, 0 <= t -> X t = X' t /\ W t = W' t.
Proof. exact ForeverSI.sch_motion_of_unique. Qed.
Print Assumptions C132_schwarzschild_unique.

Theorem C132_schwarzschild_rows : forall c G o, 0 < c -> 0 < G ->
  forall K Kin x v g,
  0 <= K -> 0 <= Kin -> MetricModel.sch_cov c G o (si_position c x) = Ok g -> 0 < mnth g 0 0 -> sin (c2 x) <> 0 -> norm2 g (four_vel 0 v) < c ^ 2 ->
  exists w, timelike_lift c g v w /\ forall X W, motion_of (sch_f_vec c G o) (si_position c x) (four_vel w v) X W ->
  forall T, 0 < T -> flow_rounded K Kin c (fun e => sch_covA e c G o) (fun e => sch_fA e c G o) x v X W T.
Proof. exact ForeverSI.sch_motion_of_rows. Qed.
Print Assumptions C132_schwarzschild_rows.

Theorem C132_schwarzschild_barred : forall c G o, 0 < c -> 0 < G -> mo_sys o = Sph -> 0 < q_val (mo_M o) ->
  forall x h w r1,
  MetricModel.sch_cov c G o x = Ok h -> barred_si c (sch_rad c G o) 0 r1 x h w ->
  exists X W, motion_of (sch_f_vec c G o) x w X W /\ forall t, 0 <= t -> r1 < c1 (X t) /\ 0 < c2 (X t) < PI.
Proof. exact ForeverSI.sch_barred_forever. Qed.
Print Assumptions C132_schwarzschild_barred.

Theorem C132_schwarzschild_escapes : forall c G o, 0 < c -> 0 < G -> mo_sys o = Sph -> 0 < q_val (mo_M o) ->
  forall x h w r1,
  MetricModel.sch_cov c G o x = Ok h -> exterior_si (sch_rad c G o) 0 r1 x h w -> 0 < c1 w ->
  (forall r, c1 x <= r -> 0 < radial_si c (sch_rad c G o) 0 x h w r) -> ConvProofs2.norm2 h w < (FloatInv.low 0 h w / c) * (FloatInv.low 0 h w / c) ->
  exists k X W, 0 < k /\ motion_of (sch_f_vec c G o) x w X W /\ (forall t, 0 <= t -> c1 x + k * t <= c1 (X t)) /\ runs_off (fun t => c1 (X t)).
Proof. exact ForeverSI.sch_escapes_forever. Qed.
Print Assumptions C132_schwarzschild_escapes.

Theorem C132_schwarzschild_scattered : forall c G o, 0 < c -> 0 < G -> mo_sys o = Sph -> 0 < q_val (mo_M o) ->
  forall x h w r1 rt,
  MetricModel.sch_cov c G o x = Ok h -> barred_si c (sch_rad c G o) 0 r1 x h w -> c1 w < 0 -> rt < c1 x ->
  turning_point (radial_si c (sch_rad c G o) 0 x h w) rt -> ConvProofs2.norm2 h w < (FloatInv.low 0 h w / c) * (FloatInv.low 0 h w / c) ->
  exists s X W, 0 < s /\ motion_of (sch_f_vec c G o) x w X W /\ c1 (X s) = rt /\
  (forall t u, 0 <= t < u -> u <= s -> c1 (X u) < c1 (X t)) /\ (forall t u, s <= t < u -> c1 (X t) < c1 (X u)) /\ runs_off (fun t => c1 (X t)).
Proof. exact ForeverSI.sch_scattered_forever. Qed.
Print Assumptions C132_schwarzschild_scattered.

Theorem C132_schwarzschild_bound : forall c G o, 0 < c -> 0 < G -> mo_sys o = Sph -> 0 < q_val (mo_M o) ->
  forall x h w r1,
  MetricModel.sch_cov c G o x = Ok h -> barred_si c (sch_rad c G o) 0 r1 x h w -> (FloatInv.low 0 h w / c) * (FloatInv.low 0 h w / c) < ConvProofs2.norm2 h w ->
  exists r2 X W, motion_of (sch_f_vec c G o) x w X W /\ forall t, 0 <= t -> r1 < c1 (X t) < r2.
Proof. exact ForeverSI.sch_bound_forever. Qed.
Print Assumptions C132_schwarzschild_bound.

(** whatever accuracy is wanted over whatever interval: a small enough step and enough bits give it *)
Theorem C132_precision : forall s prms g a Q cov out x1 x2 x3 u1 u2 u3 tl order w r1, named_bh s prms g a Q -> book s prms cov out -> out x1 x2 -> In order [2; 4; 6; 8]%nat -> released a Q r1 x1 x2 u3 ->
  
  exists guu E, inverse_of guu (cov x1 x2) /\ on_shell_future guu (mkQ4 (- E) u1 u2 u3) u1 u2 u3 tl /\
  forall q p, orbit_of g (mkQ4 0 x1 x2 x3) (mkQ4 (- E) u1 u2 u3) q p -> forall T, 0 < T -> reaches_accuracy s prms x1 x2 x3 u1 u2 u3 tl order w q p T.
Proof. exact Precision.orbit_precise. Qed.
Print Assumptions C132_precision.

Theorem C132_kerr_newman_precision : forall c G Cc o Kin x v g,
  0 < c -> 0 < G -> 0 < Cc -> 0 <= Kin -> MetricModel.kn_cov c G Cc o (si_position c x) = Ok g -> 0 < mnth g 0 0 -> sin (c2 x) <> 0 -> norm2 g (four_vel 0 v) < c ^ 2 ->
  exists w, timelike_lift c g v w /\ forall X W, motion_of (kn_f_vec c G Cc o) (si_position c x) (four_vel w v) X W ->
  forall T, 0 < T -> flow_reaches_accuracy Kin c (fun e => kn_covA e c G Cc o) (fun e => kn_fA e c G Cc o) x v X W T.
Proof. exact Precision.kn_motion_of_precise. Qed.
Print Assumptions C132_kerr_newman_precision.

Theorem C132_schwarzschild_precision : forall c G o Kin x v g,
  0 < c -> 0 < G -> 0 <= Kin -> MetricModel.sch_cov c G o (si_position c x) = Ok g -> 0 < mnth g 0 0 -> sin (c2 x) <> 0 -> norm2 g (four_vel 0 v) < c ^ 2 ->
  exists w, timelike_lift c g v w /\ forall X W, motion_of (sch_f_vec c G o) (si_position c x) (four_vel w v) X W ->
  forall T, 0 < T -> flow_reaches_accuracy Kin c (fun e => sch_covA e c G o) (fun e => sch_fA e c G o) x v X W T.
Proof. exact Precision.sch_motion_of_precise. Qed.
Print Assumptions C132_schwarzschild_precision.

(** such formats and libraries exist, of every precision *)
Theorem C132_formats : forall bits,
  exists F L, usable F /\ libm_ok F L /\ tan_lib F L /\ l_pow L 0 2 = Ok 0 /\ (bits <= prec F)%Z.
Proof. exact Precision.precise_formats. Qed.
Print Assumptions C132_formats.

(** Schwarzschild, G = c = M = 1, released at r = 10 in the equatorial plane: a light ray of angular momentum 1 turning at r = 4 and leaving for ever; a particle of angular momentum 4 staying between r = 4 and some r2 for ever; the numbers are those of C130_nonvacuous *)
Example C132_nonvacuous :
  (exists q p x E, orbit_of schE (mkQ4 0 10 (PI / 2) 0) (mkQ4 (- E) (- sqrt (93 / 2560)) 0 1) q p /\ 0 < x /\ c1 (q x) = 4 /\ (forall t u, x <= t < u -> c1 (q t) < c1 (q u)) /\ runs_off (fun t => c1 (q t)) /\
     forall T, 0 < T -> rows_follow "Schwarzschild" [] 10 (PI / 2) 0 (- sqrt (93 / 2560)) 0 1 false 4 1 4 q p T) /\
  (exists q p r2 E, orbit_of schE (mkQ4 0 10 (PI / 2) 0) (mkQ4 (- E) 0 0 4) q p /\ (forall t, 0 <= t -> 4 < c1 (q t) < r2) /\
     forall T, 0 < T -> rows_follow "Schwarzschild" [] 10 (PI / 2) 0 0 0 4 true 4 1 4 q p T /\ reaches_accuracy "Schwarzschild" [] 10 (PI / 2) 0 0 0 4 true 4 1 q p T).
Proof.
  assert (PP := PI_RGT_0). destruct C130_nonvacuous as (HN & HB & Ho & _ & _ & (U1 & F) & (R4 & B)).
  assert (Hor : In 4%nat [2; 4; 6; 8]%nat) by (right; left; reflexivity). assert (Hn : 4%nat = 2%nat \/ (4 = 4 /\ 4 = 4)%nat) by (right; split; reflexivity).
  split.
  - assert (R3 : released 0 0 3 10 (PI / 2) 1) by (unfold released; lra).
    destruct (C132_geodesic_flyby _ _ _ _ _ _ _ 10 (PI / 2) 0 _ 0 1 false 4 1 4 3 HN HB Ho Hor Hn R3 U1 4 ltac:(lra) F) as (guu & E & q & p & x & _ & _ & A & X1 & X2 & _ & X3 & X4 & X5).
    exists q, p, x, E. split; [exact A|]. split; [exact X1|]. split; [exact X2|]. split; [exact X3|]. split; [exact X4|exact X5].
  - destruct (C132_geodesic_bound _ _ _ _ _ _ _ 10 (PI / 2) 0 _ 0 4 true 4 1 4 4 HN HB Ho Hor Hn R4 eq_refl B) as (guu & E & q & p & r2 & _ & _ & A & X1 & X2).
    exists q, p, r2, E. split; [exact A|]. split; [exact X1|]. intros T HT. split; [exact (X2 T HT)|]. apply (Precision.rows_precise _ _ _ _ _ _ _ _ _ _ _ 4); [lia|exact (X2 T HT)].
Qed.
(** SI, c = G = M = 1, Schwarzschild: the starts of C130_nonvacuous_si *)
Example C132_nonvacuous_si : let o := mkmobj NSchwarzschild Sph (mkqty 1 1 DMass) (mkqty 0 1 DOne) (mkqty 0 1 DCharge) (mkqty 0 1 DOne) in let x := mkQ4 0 10 (PI / 2) 0 in
  (let v := mkQ4 0 (- sqrt (92 / 375)) 0 (6/100) in exists w s X W, 0 < s /\ motion_of (sch_f_vec 1 1 o) (si_position 1 x) (four_vel w v) X W /\ c1 (X s) = 6 /\ runs_off (fun t => c1 (X t))) /\
  (let v := mkQ4 0 0 0 (4/100) in exists w r2 X W, motion_of (sch_f_vec 1 1 o) (si_position 1 x) (four_vel w v) X W /\ forall t, 0 <= t -> 4 < c1 (X t) < r2).
Proof.
  intros o x. destruct C130_nonvacuous_si as (_ & _ & F & B). fold o x in F, B. assert (HM : 0 < q_val (mo_M o)) by (cbn; lra).
  split; intros v; [destruct F as (g & w & (S1 & S2 & S3 & S4) & F1 & F2 & F3 & F4)|destruct B as (g & w & (S1 & S2 & S3 & S4) & B1 & B2)]; fold v in S4; assert (NN : ConvProofs2.norm2 g (four_vel w v) = 1 ^ 2) by apply S4.
  - destruct (C132_schwarzschild_scattered 1 1 o Rlt_0_1 Rlt_0_1 eq_refl HM (si_position 1 x) g (four_vel w v) 4 6 S1 F1 F2 ltac:(change (6 < 10); lra) F3 ltac:(rewrite NN; exact F4)) as (s & X & W & A1 & A2 & A3 & _ & _ & A4).
    exists w, s, X, W. split; [exact A1|]. split; [exact A2|]. split; [exact A3|exact A4].
  - destruct (C132_schwarzschild_bound 1 1 o Rlt_0_1 Rlt_0_1 eq_refl HM (si_position 1 x) g (four_vel w v) 4 S1 B1 ltac:(rewrite NN; exact B2)) as (r2 & X & W & A1 & A2).
    exists w, r2, X, W. split; [exact A1|exact A2].
Qed.
