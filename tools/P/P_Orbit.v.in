(** Property C127: orbits that a potential barrier keeps away from the horizon exist for all parameter values, and are what the integrators compute.
   [named_bh s prms g a Q]: Geodesic("s", prms, ..) uses the metric program g, of a black hole of spin a and charge Q, units G = c = M = 1. [book s prms cov out]: its textbook metric cov and its exterior out.
   [geodesic_on g q p T]: on [0, T] g evaluates without error along q and (q, p) obeys Hamilton's equations of g. [Ham g q p] = 1/2 g^ij(q) p_i p_j.
   [carter a q p m] = p_theta^2 + (a sin(theta) p_t + p_phi / sin(theta))^2 - a^2 cos(theta)^2 m.
   [radial a Q E L K m r] = ((r^2 + a^2) E + a L)^2 - (r^2 - 2 r + a^2 + Q^2) (K - m r^2), for p_t = E, p_phi = L, Carter's constant K, g^ij p_i p_j = m: its roots are the turning points of the motion.
   [barred g a Q r1 q p]: q lies outside r1 >= 1, off the axis, p_phi is not 0, r1^2 - 2 r1 + a^2 + Q^2 > 0 and the radial potential of (q, p) is negative at r1.
   [barrier a Q r1 r th E u1 u2 u3 tl]: the same, written out, for a body of mass 1 (tl) or 0 at (r, th) with p_t = - E and spatial momentum (u1, u2, u3).
   [on_shell_future guu P u1 u2 u3 tl]: P has the spatial components u1 u2 u3, norm -1 (tl) or 0 in the inverse metric guu, and is future directed.
   [geodesicA A ..]: what Geodesic computes in the arithmetic A; [accurate u A]: A has unit roundoff u (u = 0: exact).
   SI classes: x = (c t, r, theta, phi); g the metric_covariant at x, signature (+ - - -); [low mu g v] = g_(mu nu) v^nu; [moves f_vec X W t]: X' = W and W' is the second half of f_vec at (X, W); q_val (mo_q o) = 0: the particle has no charge.
   [barred_si c rs al r1 x g v]: r1 >= rs / 2 below r, r1^2 - rs r1 + al^2 > 0, off the axis, v_phi not 0, and [radial_si] (the radial potential in SI units) negative at r1.
   [flow_rounded ..], [timelike_lift ..]: see P_FloatFlow.v. *)
From Coq Require Import String Reals List ZArith Lra Lia Bool.
From Coquelicot Require Import Coquelicot.
From Verif Require Import Base Calc DualModel DualSpec DualProofs DualDiff GeoUtilsModel GeoUtilsSpec GeoUtilsProofs GeodesicModel GeodesicProofs CoordModel ConvModel ConvProofs
  FantasyModel FantasyProofs FantasyProofs2 FantasyProofs3 FantasyHam FantasyOrder FantasyGlobal FantasyGlobal2 FantasyGlobal3 FantasyShell FantasyCyclic FantasyCircular FloatModel FloatGlobal FloatTraj FantasyCarter
  ConvProofs2 MetricModel MetricSpec MetricProofs MetricProofs2 MetricProofs3 MetricProofs5 MetricProofs6 MetricProofs7 MetricProofs8 MetricUnify MetricHamilton MetricHamilton2 MetricCarter FloatTrack FloatRK FloatRKG FloatMetricModel FloatMetric FloatMetric2 FloatMetric6 FloatVel FloatFlow FloatInv
  Contin GlobalHole GlobalHole2 GlobalMotion GlobalOrbit.
Import ListNotations.
Open Scope R_scope.

(** ---- C127 ---- *)
@thm C127_geodesic GlobalOrbit.geodesic_global -- Geodesic(name, ..): for every interval length T the orbit exists and the computed rows are within K (h^n + u/h) of it
@thm C127_exists GlobalMotion.named_global -- every named black hole, initial point and momentum behind a barrier
@thm C127_never_crosses GlobalMotion.never_crosses -- no geodesic passes a radius where the radial potential is negative, from either side
@thm C127_rows GlobalMotion.named_global_rows -- calculate_trajectory, exact arithmetic
@thm C127_rows_rounded GlobalMotion.named_global_rounded -- and in floating point: the rows stay outside the barrier up to the error
@sthm C127_kerr_newman GlobalMotion.kn_global | forall c G Cc o, 0 < c -> 0 < G -> 0 < Cc -> 0 < q_val (mo_M o) -> mo_sys o = BL -> valid_spin o -> q_val (mo_q o) = 0 -> | exact GlobalMotion.kn_global. | the SI equations of motion of the KerrNewman class, any spin, uncharged particle
@thm C127_schwarzschild GlobalMotion.sch_global
@sthm C127_kerr_newman_turning GlobalMotion.kn_never_crosses | forall c G Cc o, 0 < c -> 0 < G -> 0 < Cc -> 0 < q_val (mo_M o) -> mo_sys o = BL -> valid_spin o -> q_val (mo_q o) = 0 -> | exact GlobalMotion.kn_never_crosses. | and no motion passes a barrier radius
@thm C127_schwarzschild_turning GlobalMotion.sch_never_crosses
@thm C127_kerr_newman_flow GlobalMotion.kn_global_flow -- position and velocity in, RK4 rows out, floating point, over any interval
@thm C127_schwarzschild_flow GlobalMotion.sch_global_flow
@thm C127_any_system Contin.trapped -- any system of program equations that cannot leave a box in which its programs evaluate has a solution on [0, T]
(** a particle of mass 1 at r = 10 in the equatorial plane with p_phi = 5 (so p_t = -1) around a Schwarzschild hole: barrier at r = 4 *)
Example C127_nonvacuous : named_bh "Schwarzschild" [] schE 0 0 /\ book "Schwarzschild" [] GeoUtilsSpec.sch_cov (fun r th => 2 < r /\ sin th <> 0) /\ (2 < 10 /\ sin (PI / 2) <> 0) /\
  (forall guu E, inverse_of guu (GeoUtilsSpec.sch_cov 10 (PI / 2)) -> on_shell_future guu (mkQ4 (- E) 0 0 5) 0 0 5 true -> barrier 0 0 4 10 (PI / 2) E 0 0 5 true) /\
  barred schE 0 0 4 (mkQ4 0 10 (PI / 2) 0) (mkQ4 (-1) 0 0 5).
Proof.
  assert (PP := PI_RGT_0). split; [constructor|]. split; [constructor|]. split; [rewrite sin_PI2; lra|]. split.
  - intros guu E [HI _] (HQ & _ & _ & _ & _). 
    assert (EN : forall i j, mnth (mm guu (GeoUtilsSpec.sch_cov 10 (PI / 2))) i j = mnth id4 i j) by (intros; rewrite HI; reflexivity).
    unfold barrier. rewrite sin_PI2, cos_PI2.
    assert (G00 := EN 0%nat 0%nat). assert (G03 := EN 0%nat 3%nat). assert (G30 := EN 3%nat 0%nat). assert (G33 := EN 3%nat 3%nat).
    destruct guu as [[a00 a01 a02 a03] [a10 a11 a12 a13] [a20 a21 a22 a23] [a30 a31 a32 a33]].
    unfold mm, GeoUtilsSpec.sch_cov, id4, delta4, q4tab, mnth, sum4 in G00, G03, G30, G33. cbn in G00, G03, G30, G33. unfold dot in *. cbn in G00, G03, G30, G33. rewrite !sin_PI2 in *. 
    unfold quad, dot, mv in HQ. cbn in HQ. unfold dot in HQ. cbn in HQ.
    assert (a00 = -5/4) by lra. assert (a03 = 0) by lra. assert (a30 = 0) by lra. assert (a33 = 1/100) by lra. subst. assert (E * E = 1) by lra. split; [lra|]. split; [lra|]. split; [lra|]. split; [lra|]. nra.
  - assert (H : 2 * Ham schE (mkQ4 0 10 (PI / 2) 0) (mkQ4 (-1) 0 0 5) = -1).
    { destruct hole_sch as [(_ & _ & D) _]. assert (M := D 0 10 (PI / 2) 0). unfold SigmaS, DeltaS in M. rewrite sin_PI2, cos_PI2 in M. destruct M as [M _]; [lra|lra|lra|].
      rewrite (hole_ham schE 0 0 hole_sch _ _ M). cbn [GeoUtilsProofs.mk4 c1 c2]. rewrite kn_separated; unfold SigmaS, DeltaS; rewrite ?sin_PI2, ?cos_PI2; cbn [c0 c1 c2 c3]; [field|lra|lra|lra]. }
    unfold barred. rewrite H. unfold radial, carter, DeltaS. cbn [c0 c1 c2 c3]. rewrite sin_PI2, cos_PI2. split; [lra|]. split; [lra|]. split; [lra|]. split; lra.
Qed.
(** SI, c = G = M = 1: a body at r = 10 with angular velocity 1/20, a hole of spin 1/2: barrier at r = 4 *)
Example C127_nonvacuous_si : let o := wit 1 1 NKerrNewman (1/2) 1 0 in let x := mkQ4 0 10 (PI / 2) 0 in let v := mkQ4 0 0 0 (1/20) in
  exists g w, kn_cov 1 1 1 o (si_position 1 x) = Ok g /\ 0 < mnth g 0 0 /\ norm2 g (four_vel 0 v) < 1 ^ 2 /\ timelike_lift 1 g v w /\
  barred_si 1 (sch_rad 1 1 o) (al_of 1 1 o) 4 (si_position 1 x) g (four_vel w v) /\ 0 < q_val (mo_M o) /\ q_val (mo_q o) = 0.
Proof.
  intros o x v. assert (HS : sin (c2 x) = 1) by (unfold x; cbn [c2]; apply sin_PI2). assert (HC : cos (c2 x) = 0) by (unfold x; cbn [c2]; apply cos_PI2). assert (PP := PI_RGT_0).
  assert (X1 : c1 (si_position 1 x) = 10) by reflexivity. assert (X2 : c2 (si_position 1 x) = c2 x) by reflexivity.
  assert (AL : al_of 1 1 o = 1/2) by (unfold o; apply wit_al; lra). assert (RS : sch_rad 1 1 o = 2) by (unfold o; apply wit_rs; lra).
  assert (DK : bl_dom 1 1 o (si_position 1 x)).
  { split; [reflexivity|]. split; [unfold valid_spin, o, wit; cbn [mo_a q_val]; lra|]. rewrite AL, RS. unfold sg_of, dl_of. rewrite X1, X2, HC. split; lra. }
  assert (SG : sg_of (1/2) 10 (c2 x) = 100) by (unfold sg_of; rewrite HC; lra). assert (DL : dl_of 2 (1/2) 10 = 321/4) by (unfold dl_of; lra).
  assert (E : kn_cov 1 1 1 o (si_position 1 x) = Ok (kn_g 1 (1/2) 100 (321/4) 10 (c2 x))) by (rewrite kn_cov_eq by apply DK; rewrite AL, RS, X1, X2, SG, DL; reflexivity).
  set (g := kn_g 1 (1/2) 100 (321/4) 10 (c2 x)) in *.
  assert (W : 0 < mnth g 0 0 /\ norm2 g (four_vel 0 v) < 1 ^ 2).
  { unfold g, kn_g, four_vel, norm2, dot, mv, mnth, q4map, v. cbn [q4nth c0 c1 c2 c3]. unfold dot. cbn [q4nth c0 c1 c2 c3]. rewrite HS. split; lra. }
  assert (Hs : sin (c2 x) <> 0) by lra.
  destruct (FloatFlow.kn_flow 0 1 1 1 1 o x v g (Rle_refl 0) Rle_0_1 Rlt_0_1 Rlt_0_1 Rlt_0_1 E (proj1 W) Hs (proj2 W)) as (w & TL & _).
  exists g, w. split; [exact E|]. split; [apply W|]. split; [apply W|]. split; [exact TL|]. split; [|split; [unfold o, wit; cbn [mo_M q_val]; lra|reflexivity]].
  destruct TL as (_ & Pw & N).
  assert (L0 : low 0 g (four_vel w v) = 4/5 * w + 1/200) by (unfold low, sum4, g, kn_g, four_vel, mnth, v; cbn [q4nth c0 c1 c2 c3]; rewrite ?HS; lra).
  assert (L2 : low 2 g (four_vel w v) = 0) by (unfold low, sum4, g, kn_g, four_vel, mnth, v; cbn [q4nth c0 c1 c2 c3]; rewrite ?HS; lra).
  assert (L3 : low 3 g (four_vel w v) = w / 10 - 1003/200) by (unfold low, sum4, g, kn_g, four_vel, mnth, v; cbn [q4nth c0 c1 c2 c3]; rewrite ?HS; lra).
  assert (NN : norm2 g (four_vel w v) = 4/5 * (w * w) + w / 100 - 1003/4000).
  { unfold g, kn_g, four_vel, norm2, dot, mv, mnth, q4map, v. cbn [q4nth c0 c1 c2 c3]. unfold dot. cbn [q4nth c0 c1 c2 c3]. rewrite HS. lra. }
  assert (NE : 4/5 * (w * w) + w / 100 - 1003/4000 = 1) by (rewrite <- NN, N; ring). assert (w < 5/4) by nra. assert (6/5 < w) by nra.
  unfold barred_si, radial_si, carter_si. rewrite AL, RS, L0, L2, L3, N, X1, X2, HS, HC. unfold dl_of. split; [lra|]. split; [lra|]. split; [unfold x; cbn [c2]; lra|]. split; [lra|]. nra.
Qed.
