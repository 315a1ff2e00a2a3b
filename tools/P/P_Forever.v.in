(** Property C132: one orbit for all parameter values, the only one, and what becomes of it.
   Vocabulary as in P_Orbit.v and P_Fate.v. [orbit_of g q0 p0 q p]: (q, p) is a geodesic of g on [0, T] for every T, starting at (q0, p0). [motion_of f x w X W]: (X, W) solves the equations of motion that the method f computes, on all of [0, oo), starting at position x with 4-velocity w.
   [runs_off r]: for every B there is an s such that r t > B for all t >= s.
   [reaches_accuracy s prms .. q p T]: for every eps there is a step h0, and for every h <= h0 a number of bits, so that in every IEEE format of at least as many bits, with a libm accurate to 4 ulp, the N rows of Geodesic(s, ..) with N h <= T are within eps of (q, p). [flow_reaches_accuracy]: the same of velocity(metric) followed by RK4naive steps of f_vec, with numpy.linalg.inv eliminating in the same arithmetic and inputs correct to Kin units of roundoff. *)
From Coq Require Import String Reals List ZArith Lra Lia Bool.
From Coquelicot Require Import Coquelicot.
From Verif Require Import Base Calc DualModel DualSpec DualProofs DualDiff GeoUtilsModel GeoUtilsSpec GeoUtilsProofs GeodesicModel GeodesicProofs CoordModel ConvModel ConvProofs
  FantasyModel FantasyProofs FantasyProofs2 FantasyProofs3 FantasyHam FantasyOrder FantasyGlobal FantasyGlobal2 FantasyGlobal3 FantasyShell FantasyCyclic FantasyCircular FloatModel FloatGlobal FloatTraj FantasyCarter
  ConvProofs2 MetricModel MetricSpec MetricProofs MetricProofs2 MetricProofs3 MetricProofs5 MetricProofs6 MetricProofs7 MetricProofs8 MetricUnify MetricHamilton MetricHamilton2 MetricCarter FloatTrack FloatRK FloatRKG FloatMetricModel FloatMetric FloatMetric2 FloatMetric6 FloatVel FloatFlow FloatInv
  Contin Leave GlobalHole GlobalHole2 GlobalMotion GlobalOrbit Fate Scatter FateOrbit FateOrbit2 FateSI FateFlow Glue Forever ForeverSI P_Fate FloatIEEE FloatTraj FloatLU FloatMetric8 Precision.
Import ListNotations.
Open Scope R_scope.

@sthm C132_orbit_unique Forever.orbit_unique | forall s prms g a Q q0 p0, named_bh s prms g a Q -> | exact Forever.orbit_unique. | two orbits of a named black hole from the same point and momentum are the same
@sthm C132_barred Forever.barred_forever | forall s prms g a Q q0 p0, named_bh s prms g a Q -> | exact Forever.barred_forever. | a barrier inside: the orbit exists for ever, outside r1 and off the axis
@sthm C132_escapes Forever.escapes_forever | forall s prms g a Q q0 p0, named_bh s prms g a Q -> | exact Forever.escapes_forever. | outwards, no turning point ahead, energy above the rest energy: r increases strictly, at least linearly, beyond every bound
@sthm C132_flyby Forever.flyby_forever | forall s prms g a Q q0 p0, named_bh s prms g a Q -> | exact Forever.flyby_forever. | inwards to the turning point, at one finite parameter value, then outwards for ever beyond every bound
@sthm C132_bound Forever.bound_forever | forall s prms g a Q q0 p0, named_bh s prms g a Q -> | exact Forever.bound_forever. | energy below the rest energy: between two radii for ever
@sthm C132_rows Forever.orbit_rows | forall s prms g a Q cov out x1 x2 x3 u1 u2 u3 tl order w n r1, named_bh s prms g a Q -> book s prms cov out -> out x1 x2 -> In order [2; 4; 6; 8]%nat -> n = 2%nat \/ (order = 4 /\ n = 4)%nat -> released a Q r1 x1 x2 u3 -> | exact Forever.orbit_rows. | Geodesic(name, ..): the computed rows follow that one orbit over every interval, in every arithmetic
@sthm C132_geodesic_barred Forever.geodesic_barred_forever | forall s prms g a Q cov out x1 x2 x3 u1 u2 u3 tl order w n r1, named_bh s prms g a Q -> book s prms cov out -> out x1 x2 -> In order [2; 4; 6; 8]%nat -> n = 2%nat \/ (order = 4 /\ n = 4)%nat -> released a Q r1 x1 x2 u3 -> | exact Forever.geodesic_barred_forever.
@sthm C132_geodesic_escapes Forever.geodesic_escapes_forever | forall s prms g a Q cov out x1 x2 x3 u1 u2 u3 tl order w n r1, named_bh s prms g a Q -> book s prms cov out -> out x1 x2 -> In order [2; 4; 6; 8]%nat -> n = 2%nat \/ (order = 4 /\ n = 4)%nat -> released a Q r1 x1 x2 u3 -> | exact Forever.geodesic_escapes_forever.
@sthm C132_geodesic_flyby Forever.geodesic_flyby_forever | forall s prms g a Q cov out x1 x2 x3 u1 u2 u3 tl order w n r1, named_bh s prms g a Q -> book s prms cov out -> out x1 x2 -> In order [2; 4; 6; 8]%nat -> n = 2%nat \/ (order = 4 /\ n = 4)%nat -> released a Q r1 x1 x2 u3 -> | exact Forever.geodesic_flyby_forever.
@sthm C132_geodesic_bound Forever.geodesic_bound_forever | forall s prms g a Q cov out x1 x2 x3 u1 u2 u3 tl order w n r1, named_bh s prms g a Q -> book s prms cov out -> out x1 x2 -> In order [2; 4; 6; 8]%nat -> n = 2%nat \/ (order = 4 /\ n = 4)%nat -> released a Q r1 x1 x2 u3 -> | exact Forever.geodesic_bound_forever.
@sthm C132_kerr_newman_unique ForeverSI.kn_motion_of_unique | forall c G Cc o, 0 < c -> 0 < G -> 0 < Cc -> | exact ForeverSI.kn_motion_of_unique. | KerrNewman.f_vec, SI, any charges
@sthm C132_kerr_newman_rows ForeverSI.kn_motion_of_rows | forall c G Cc o, 0 < c -> 0 < G -> 0 < Cc -> | exact ForeverSI.kn_motion_of_rows. | position and velocity in: the RK4 rows follow the motion over every interval of proper time, in every arithmetic
@sthm C132_kerr_newman_barred ForeverSI.kn_barred_forever | forall c G Cc o, 0 < c -> 0 < G -> 0 < Cc -> 0 < q_val (mo_M o) -> mo_sys o = BL -> valid_spin o -> q_val (mo_q o) = 0 -> | exact ForeverSI.kn_barred_forever.
@sthm C132_kerr_newman_escapes ForeverSI.kn_escapes_forever | forall c G Cc o, 0 < c -> 0 < G -> 0 < Cc -> 0 < q_val (mo_M o) -> mo_sys o = BL -> valid_spin o -> q_val (mo_q o) = 0 -> | exact ForeverSI.kn_escapes_forever.
@sthm C132_kerr_newman_scattered ForeverSI.kn_scattered_forever | forall c G Cc o, 0 < c -> 0 < G -> 0 < Cc -> 0 < q_val (mo_M o) -> mo_sys o = BL -> valid_spin o -> q_val (mo_q o) = 0 -> | exact ForeverSI.kn_scattered_forever.
@sthm C132_kerr_newman_bound ForeverSI.kn_bound_forever | forall c G Cc o, 0 < c -> 0 < G -> 0 < Cc -> 0 < q_val (mo_M o) -> mo_sys o = BL -> valid_spin o -> q_val (mo_q o) = 0 -> | exact ForeverSI.kn_bound_forever.
@sthm C132_schwarzschild_unique ForeverSI.sch_motion_of_unique | forall c G o, 0 < c -> 0 < G -> mo_sys o = Sph -> | exact ForeverSI.sch_motion_of_unique.
@sthm C132_schwarzschild_rows ForeverSI.sch_motion_of_rows | forall c G o, 0 < c -> 0 < G -> | exact ForeverSI.sch_motion_of_rows.
@sthm C132_schwarzschild_barred ForeverSI.sch_barred_forever | forall c G o, 0 < c -> 0 < G -> mo_sys o = Sph -> 0 < q_val (mo_M o) -> | exact ForeverSI.sch_barred_forever.
@sthm C132_schwarzschild_escapes ForeverSI.sch_escapes_forever | forall c G o, 0 < c -> 0 < G -> mo_sys o = Sph -> 0 < q_val (mo_M o) -> | exact ForeverSI.sch_escapes_forever.
@sthm C132_schwarzschild_scattered ForeverSI.sch_scattered_forever | forall c G o, 0 < c -> 0 < G -> mo_sys o = Sph -> 0 < q_val (mo_M o) -> | exact ForeverSI.sch_scattered_forever.
@sthm C132_schwarzschild_bound ForeverSI.sch_bound_forever | forall c G o, 0 < c -> 0 < G -> mo_sys o = Sph -> 0 < q_val (mo_M o) -> | exact ForeverSI.sch_bound_forever.
@sthm C132_precision Precision.orbit_precise | forall s prms g a Q cov out x1 x2 x3 u1 u2 u3 tl order w r1, named_bh s prms g a Q -> book s prms cov out -> out x1 x2 -> In order [2; 4; 6; 8]%nat -> released a Q r1 x1 x2 u3 -> | exact Precision.orbit_precise. | whatever accuracy is wanted over whatever interval: a small enough step and enough bits give it
@thm C132_kerr_newman_precision Precision.kn_motion_of_precise
@thm C132_schwarzschild_precision Precision.sch_motion_of_precise
@thm C132_formats Precision.precise_formats -- such formats and libraries exist, of every precision
(** Schwarzschild, G = c = M = 1, released at r = 10 in the equatorial plane: a light ray of angular momentum 1 turning at r = 4 and leaving for ever; a particle of angular momentum 4 staying between r = 4 and some r2 for ever; the numbers are those of C130_nonvacuous *)
Example C132_nonvacuous :
  (exists q p x E, orbit_of schE (mkQ4 0 10 (PI / 2) 0) (mkQ4 (- E) (- sqrt (93 / 2560)) 0 1) q p /\ 0 < x /\ c1 (q x) = 4 /\ (forall t u, x <= t < u -> c1 (q t) < c1 (q u)) /\ runs_off (fun t => c1 (q t)) /\
     forall T, 0 < T -> rows_follow "Schwarzschild" [] 10 (PI / 2) 0 (- sqrt (93 / 2560)) 0 1 false 4 1 4 q p T) /\
  (exists q p r2 E, orbit_of schE (mkQ4 0 10 (PI / 2) 0) (mkQ4 (- E) 0 0 4) q p /\ (forall t, 0 <= t -> 4 < c1 (q t) < r2) /\
     forall T, 0 < T -> rows_follow "Schwarzschild" [] 10 (PI / 2) 0 0 0 4 true 4 1 4 q p T /\ reaches_accuracy "Schwarzschild" [] 10 (PI / 2) 0 0 0 4 true 4 1 q p T).
Proof.
  assert (PP := PI_RGT_0). destruct C130_nonvacuous as (HN & HB & Ho & _ & _ & (U1 & F) & (R4 & B)).
  assert (Hor : In 4%nat [2; 4; 6; 8]%nat) by (right; left; reflexivity). assert (Hn : 4%nat = 2%nat \/ (4 = 4 /\ 4 = 4)%nat) by (right; split; reflexivity).
  split.
  - assert (R3 : released 0 0 3 10 (PI / 2) 1) by (unfold released; lra).
    destruct (C132_geodesic_flyby _ _ _ _ _ _ _ 10 (PI / 2) 0 _ 0 1 false 4 1 4 3 HN HB Ho Hor Hn R3 U1 4 ltac:(lra) F) as (guu & E & q & p & x & _ & _ & A & X1 & X2 & _ & X3 & X4 & X5).
    exists q, p, x, E. split; [exact A|]. split; [exact X1|]. split; [exact X2|]. split; [exact X3|]. split; [exact X4|exact X5].
  - destruct (C132_geodesic_bound _ _ _ _ _ _ _ 10 (PI / 2) 0 _ 0 4 true 4 1 4 4 HN HB Ho Hor Hn R4 eq_refl B) as (guu & E & q & p & r2 & _ & _ & A & X1 & X2).
    exists q, p, r2, E. split; [exact A|]. split; [exact X1|]. intros T HT. split; [exact (X2 T HT)|]. apply (Precision.rows_precise _ _ _ _ _ _ _ _ _ _ _ 4); [lia|exact (X2 T HT)].
Qed.
(** SI, c = G = M = 1, Schwarzschild: the starts of C130_nonvacuous_si *)
Example C132_nonvacuous_si : let o := mkmobj NSchwarzschild Sph (mkqty 1 1 DMass) (mkqty 0 1 DOne) (mkqty 0 1 DCharge) (mkqty 0 1 DOne) in let x := mkQ4 0 10 (PI / 2) 0 in
  (let v := mkQ4 0 (- sqrt (92 / 375)) 0 (6/100) in exists w s X W, 0 < s /\ motion_of (sch_f_vec 1 1 o) (si_position 1 x) (four_vel w v) X W /\ c1 (X s) = 6 /\ runs_off (fun t => c1 (X t))) /\
  (let v := mkQ4 0 0 0 (4/100) in exists w r2 X W, motion_of (sch_f_vec 1 1 o) (si_position 1 x) (four_vel w v) X W /\ forall t, 0 <= t -> 4 < c1 (X t) < r2).
Proof.
  intros o x. destruct C130_nonvacuous_si as (_ & _ & F & B). fold o x in F, B. assert (HM : 0 < q_val (mo_M o)) by (cbn; lra).
  split; intros v; [destruct F as (g & w & (S1 & S2 & S3 & S4) & F1 & F2 & F3 & F4)|destruct B as (g & w & (S1 & S2 & S3 & S4) & B1 & B2)]; fold v in S4; assert (NN : ConvProofs2.norm2 g (four_vel w v) = 1 ^ 2) by apply S4.
  - destruct (C132_schwarzschild_scattered 1 1 o Rlt_0_1 Rlt_0_1 eq_refl HM (si_position 1 x) g (four_vel w v) 4 6 S1 F1 F2 ltac:(change (6 < 10); lra) F3 ltac:(rewrite NN; exact F4)) as (s & X & W & A1 & A2 & A3 & _ & _ & A4).
    exists w, s, X, W. split; [exact A1|]. split; [exact A2|]. split; [exact A3|exact A4].
  - destruct (C132_schwarzschild_bound 1 1 o Rlt_0_1 Rlt_0_1 eq_refl HM (si_position 1 x) g (four_vel w v) 4 S1 B1 ltac:(rewrite NN; exact B2)) as (r2 & X & W & A1 & A2).
    exists w, r2, X, W. split; [exact A1|exact A2].
Qed.
