(* generated from tools/P/P_Orbit.v.in by tools/genp.py: statements only, proofs are references *)
(** Property C127: orbits that a potential barrier keeps away from the horizon exist for all parameter values, and are what the integrators compute.
   [named_bh s prms g a Q]: Geodesic("s", prms, ..) uses the metric program g, of a black hole of spin a and charge Q, units G = c = M = 1. [book s prms cov out]: its textbook metric cov and its exterior out.
   [geodesic_on g q p T]: on [0, T] g evaluates without error along q and (q, p) obeys Hamilton's equations of g. [Ham g q p] = 1/2 g^ij(q) p_i p_j.
   [carter a q p m] = p_theta^2 + (a sin(theta) p_t + p_phi / sin(theta))^2 - a^2 cos(theta)^2 m.
   [radial a Q E L K m r] = ((r^2 + a^2) E + a L)^2 - (r^2 - 2 r + a^2 + Q^2) (K - m r^2), for p_t = E, p_phi = L, Carter's constant K, g^ij p_i p_j = m: its roots are the turning points of the motion.
   [barred g a Q r1 q p]: q lies outside r1 >= 1, off the axis, p_phi is not 0, r1^2 - 2 r1 + a^2 + Q^2 > 0 and the radial potential of (q, p) is negative at r1.
   [barrier a Q r1 r th E u1 u2 u3 tl]: the same, written out, for a body of mass 1 (tl) or 0 at (r, th) with p_t = - E and spatial momentum (u1, u2, u3).
   [on_shell_future guu P u1 u2 u3 tl]: P has the spatial components u1 u2 u3, norm -1 (tl) or 0 in the inverse metric guu, and is future directed.
   [geodesicA A ..]: what Geodesic computes in the arithmetic A; [accurate u A]: A has unit roundoff u (u = 0: exact).
   SI classes: x = (c t, r, theta, phi); g the metric_covariant at x, signature (+ - - -); [low mu g v] = g_(mu nu) v^nu; [moves f_vec X W t]: X' = W and W' is the second half of f_vec at (X, W); q_val (mo_q o) = 0: the particle has no charge.
   [barred_si c rs al r1 x g v]: r1 >= rs / 2 below r, r1^2 - rs r1 + al^2 > 0, off the axis, v_phi not 0, and [radial_si] (the radial potential in SI units) negative at r1.
   [flow_rounded ..], [timelike_lift ..]: see P_FloatFlow.v. *)
From Coq Require Import String Reals List ZArith Lra Lia Bool.
From Coquelicot Require Import Coquelicot.
From Verif Require Import Base Calc DualModel DualSpec DualProofs DualDiff GeoUtilsModel GeoUtilsSpec GeoUtilsProofs GeodesicModel GeodesicProofs CoordModel ConvModel ConvProofs
  FantasyModel FantasyProofs FantasyProofs2 FantasyProofs3 FantasyHam FantasyOrder FantasyGlobal FantasyGlobal2 FantasyGlobal3 FantasyShell FantasyCyclic FantasyCircular FloatModel FloatGlobal FloatTraj FantasyCarter
  ConvProofs2 MetricModel MetricSpec MetricProofs MetricProofs2 MetricProofs3 MetricProofs5 MetricProofs6 MetricProofs7 MetricProofs8 MetricUnify MetricHamilton MetricHamilton2 MetricCarter FloatTrack FloatRK FloatRKG FloatMetricModel FloatMetric FloatMetric2 FloatMetric6 FloatVel FloatFlow FloatInv
  Contin GlobalHole GlobalHole2 GlobalMotion GlobalOrbit.
Import ListNotations.
Open Scope R_scope.

(** ---- C127 ---- *)
(** Geodesic(name, ..): for every interval length T the orbit exists and the computed rows are within K (h^n + u/h) of it *)
Theorem C127_geodesic : forall s prms g a Q cov out x1 x2 x3 u1 u2 u3 tl order w n r1,
  named_bh s prms g a Q -> book s prms cov out -> out x1 x2 ->
  In order [2; 4; 6; 8]%nat -> n = 2%nat \/ (order = 4 /\ n = 4)%nat ->
  (forall guu E, inverse_of guu (cov x1 x2) -> on_shell_future guu (mkQ4 (- E) u1 u2 u3) u1 u2 u3 tl -> barrier a Q r1 x1 x2 E u1 u2 u3 tl) ->
  exists guu E, inverse_of guu (cov x1 x2) /\ on_shell_future guu (mkQ4 (- E) u1 u2 u3) u1 u2 u3 tl /\
  forall T, 0 < T -> exists q p K r, 0 <= K /\ 0 < r /\
  geodesic_on g q p T /\ q 0 = mkQ4 0 x1 x2 x3 /\ p 0 = mkQ4 (- E) u1 u2 u3 /\ (forall t, 0 <= t <= T -> r1 < c1 (q t)) /\
  forall u A, 0 <= u -> accurate u A -> forall h N, 0 < h <= r -> u / h <= r -> (0 < N)%nat -> INR N * h <= T ->
  exists P' rows, geodesicA A (MName s) prms (x1, x2, x3) (u1, u2, u3) tl false N h order w = Ok (P', rows) /\ vclose (K * u) P' (p 0) /\ length rows = N /\
  forall k row, nth_error rows k = Some row ->
  vclose (K * (h ^ n + u / h)) (fst row) (q (INR (S k) * h)) /\ vclose (K * (h ^ n + u / h)) (snd row) (p (INR (S k) * h)) /\ r1 - K * (h ^ n + u / h) < c1 (fst row).
Proof. exact GlobalOrbit.geodesic_global. Qed.
Print Assumptions C127_geodesic.

(** every named black hole, initial point and momentum behind a barrier *)
Theorem C127_exists : forall s prms g a Q r1 q0 p0,
  named_bh s prms g a Q -> barred g a Q r1 q0 p0 -> forall T, 0 <= T ->
  exists q p, q 0 = q0 /\ p 0 = p0 /\ geodesic_on g q p T /\ forall t, 0 <= t <= T -> r1 < c1 (q t) /\ 0 < c2 (q t) < PI.
Proof. exact GlobalMotion.named_global. Qed.
Print Assumptions C127_exists.

(** no geodesic passes a radius where the radial potential is negative, from either side *)
Theorem C127_never_crosses : forall g a Q q p T rho,
  hole g a Q -> independent_of g 0 -> independent_of g 3 -> geodesic_on g q p T -> 0 <= T ->
  radial a Q (c0 (p 0)) (c3 (p 0)) (carter a (q 0) (p 0) (2 * Ham g (q 0) (p 0))) (2 * Ham g (q 0) (p 0)) rho < 0 ->
  (rho < c1 (q 0) -> forall t, 0 <= t <= T -> rho < c1 (q t)) /\ (c1 (q 0) < rho -> forall t, 0 <= t <= T -> c1 (q t) < rho).
Proof. exact GlobalMotion.never_crosses. Qed.
Print Assumptions C127_never_crosses.

(** calculate_trajectory, exact arithmetic *)
Theorem C127_rows : forall s prms g a Q r1 q0 p0 order w f n,
  named_bh s prms g a Q -> barred g a Q r1 q0 p0 ->
  integrator_of order (metricfun_of g) w = Ok f -> n = 2%nat \/ (order = 4 /\ n = 4)%nat -> forall T, 0 < T ->
  exists q p, q 0 = q0 /\ p 0 = p0 /\ geodesic_on g q p T /\ (forall t, 0 <= t <= T -> r1 < c1 (q t)) /\
  exists C N0, (0 < N0)%nat /\ forall N tl rtol atol suppress, (N0 <= N)%nat ->
  exists rows, calculate_trajectory g q0 p0 tl false (mkkw N (T / INR N) rtol atol order w suppress) = Ok (seq 0 N, rows) /\ length rows = N /\
  forall k row, nth_error rows k = Some row ->
  (forall i, (i < 4)%nat -> Rabs (q4nth (fst row) i - q4nth (q (INR (S k) * (T / INR N))) i) <= C * (T / INR N) ^ n /\
  Rabs (q4nth (snd row) i - q4nth (p (INR (S k) * (T / INR N))) i) <= C * (T / INR N) ^ n) /\
  r1 - C * (T / INR N) ^ n < c1 (fst row).
Proof. exact GlobalMotion.named_global_rows. Qed.
Print Assumptions C127_rows.

(** and in floating point: the rows stay outside the barrier up to the error *)
Theorem C127_rows_rounded : forall s prms g a Q r1 q0 p0 order w f n,
  named_bh s prms g a Q -> barred g a Q r1 q0 p0 ->
  integrator_of order (metricfun_of g) w = Ok f -> n = 2%nat \/ (order = 4 /\ n = 4)%nat -> forall T, 0 < T ->
  exists K r, 0 <= K /\ 0 < r /\ forall u A, 0 <= u -> accurate u A -> forall h N e0 q1 p1, 0 < h <= r -> (0 < N)%nat -> INR N * h <= T ->
  (forall i, (i < 4)%nat -> Rabs (q4nth q1 i - q4nth q0 i) <= e0 /\ Rabs (q4nth p1 i - q4nth p0 i) <= e0) -> e0 + u / h <= r ->
  exists rows, trajectoryA A g q1 p1 false N h order w = Ok rows /\ length rows = N /\
  forall row, In row rows -> r1 - K * (e0 + h ^ n + u / h) < c1 (fst row).
Proof. exact GlobalMotion.named_global_rounded. Qed.
Print Assumptions C127_rows_rounded.

(** the SI equations of motion of the KerrNewman class, any spin, uncharged particle *)
Theorem C127_kerr_newman : forall c G Cc o, 0 < c -> 0 < G -> 0 < Cc -> 0 < q_val (mo_M o) -> mo_sys o = BL -> valid_spin o -> q_val (mo_q o) = 0 ->
  forall x h w r1,
  MetricModel.kn_cov c G Cc o x = Ok h -> barred_si c (sch_rad c G o) (al_of c G o) r1 x h w -> forall T, 0 <= T ->
  exists X W, X 0 = x /\ W 0 = w /\ forall t, 0 <= t <= T -> locally t (moves (kn_f_vec c G Cc o) X W) /\ r1 < c1 (X t) /\ 0 < c2 (X t) < PI.
Proof. exact GlobalMotion.kn_global. Qed.
Print Assumptions C127_kerr_newman.

Theorem C127_schwarzschild : forall c G o x h w r1,
  0 < c -> 0 < G -> 0 < q_val (mo_M o) -> mo_sys o = Sph ->
  MetricModel.sch_cov c G o x = Ok h -> barred_si c (sch_rad c G o) 0 r1 x h w -> forall T, 0 <= T ->
  exists X W, X 0 = x /\ W 0 = w /\ forall t, 0 <= t <= T -> locally t (moves (sch_f_vec c G o) X W) /\ r1 < c1 (X t) /\ 0 < c2 (X t) < PI.
Proof. exact GlobalMotion.sch_global. Qed.
Print Assumptions C127_schwarzschild.

(** and no motion passes a barrier radius *)
Theorem C127_kerr_newman_turning : forall c G Cc o, 0 < c -> 0 < G -> 0 < Cc -> 0 < q_val (mo_M o) -> mo_sys o = BL -> valid_spin o -> q_val (mo_q o) = 0 ->
  forall X W h T rho,
  0 <= T -> (forall t, 0 <= t <= T -> locally t (moves (kn_f_vec c G Cc o) X W)) -> MetricModel.kn_cov c G Cc o (X 0) = Ok h ->
  radial_si c (sch_rad c G o) (al_of c G o) (X 0) h (W 0) rho < 0 ->
  (rho < c1 (X 0) -> forall t, 0 <= t <= T -> rho < c1 (X t)) /\ (c1 (X 0) < rho -> forall t, 0 <= t <= T -> c1 (X t) < rho).
Proof. exact GlobalMotion.kn_never_crosses. Qed.
Print Assumptions C127_kerr_newman_turning.

Theorem C127_schwarzschild_turning : forall c G o X W h T rho,
  0 < c -> 0 < G -> 0 < q_val (mo_M o) -> mo_sys o = Sph -> 0 <= T ->
  (forall t, 0 <= t <= T -> locally t (moves (sch_f_vec c G o) X W)) -> MetricModel.sch_cov c G o (X 0) = Ok h ->
  radial_si c (sch_rad c G o) 0 (X 0) h (W 0) rho < 0 ->
  (rho < c1 (X 0) -> forall t, 0 <= t <= T -> rho < c1 (X t)) /\ (c1 (X 0) < rho -> forall t, 0 <= t <= T -> c1 (X t) < rho).
Proof. exact GlobalMotion.sch_never_crosses. Qed.
Print Assumptions C127_schwarzschild_turning.

(** position and velocity in, RK4 rows out, floating point, over any interval *)
Theorem C127_kerr_newman_flow : forall K Kin c G Cc o x v g w r1,
  0 <= K -> 0 <= Kin -> 0 < c -> 0 < G -> 0 < Cc -> 0 < q_val (mo_M o) -> q_val (mo_q o) = 0 ->
  MetricModel.kn_cov c G Cc o (si_position c x) = Ok g -> 0 < mnth g 0 0 -> norm2 g (four_vel 0 v) < c ^ 2 -> timelike_lift c g v w ->
  barred_si c (sch_rad c G o) (al_of c G o) r1 (si_position c x) g (four_vel w v) -> forall T, 0 < T ->
  exists X W, X 0 = si_position c x /\ W 0 = four_vel w v /\ (forall t, 0 <= t <= T -> locally t (moves (kn_f_vec c G Cc o) X W) /\ r1 < c1 (X t) /\ 0 < c2 (X t) < PI) /\
  flow_rounded K Kin c (fun e => kn_covA e c G Cc o) (fun e => kn_fA e c G Cc o) x v X W T.
Proof. exact GlobalMotion.kn_global_flow. Qed.
Print Assumptions C127_kerr_newman_flow.

Theorem C127_schwarzschild_flow : forall K Kin c G o x v g w r1,
  0 <= K -> 0 <= Kin -> 0 < c -> 0 < G -> 0 < q_val (mo_M o) ->
  MetricModel.sch_cov c G o (si_position c x) = Ok g -> 0 < mnth g 0 0 -> norm2 g (four_vel 0 v) < c ^ 2 -> timelike_lift c g v w ->
  barred_si c (sch_rad c G o) 0 r1 (si_position c x) g (four_vel w v) -> forall T, 0 < T ->
  exists X W, X 0 = si_position c x /\ W 0 = four_vel w v /\ (forall t, 0 <= t <= T -> locally t (moves (sch_f_vec c G o) X W) /\ r1 < c1 (X t) /\ 0 < c2 (X t) < PI) /\
  flow_rounded K Kin c (fun e => sch_covA e c G o) (fun e => sch_fA e c G o) x v X W T.
Proof. exact GlobalMotion.sch_global_flow. Qed.
Print Assumptions C127_schwarzschild_flow.

(** any system of program equations that cannot leave a box in which its programs evaluate has a solution on [0, T] *)
Theorem C127_any_system : forall N es z0 lo hi T,
  (forall i, (i < N)%nat -> below N (es i) = true) -> 0 <= T -> in_box N lo hi z0 ->
  (forall z, in_box N lo hi z -> forall i, (i < N)%nat -> defined_at z (es i)) ->
  (forall S y, 0 <= S <= T -> solves_to N es z0 S y -> in_box N lo hi (y S)) ->
  exists y, solves_to N es z0 T y.
Proof. exact Contin.trapped. Qed.
Print Assumptions C127_any_system.

(** a particle of mass 1 at r = 10 in the equatorial plane with p_phi = 5 (so p_t = -1) around a Schwarzschild hole: barrier at r = 4 *)
Example C127_nonvacuous : named_bh "Schwarzschild" [] schE 0 0 /\ book "Schwarzschild" [] GeoUtilsSpec.sch_cov (fun r th => 2 < r /\ sin th <> 0) /\ (2 < 10 /\ sin (PI / 2) <> 0) /\
  (forall guu E, inverse_of guu (GeoUtilsSpec.sch_cov 10 (PI / 2)) -> on_shell_future guu (mkQ4 (- E) 0 0 5) 0 0 5 true -> barrier 0 0 4 10 (PI / 2) E 0 0 5 true) /\
  barred schE 0 0 4 (mkQ4 0 10 (PI / 2) 0) (mkQ4 (-1) 0 0 5).
Proof.
  assert (PP := PI_RGT_0). split; [constructor|]. split; [constructor|]. split; [rewrite sin_PI2; lra|]. split.
  - intros guu E [HI _] (HQ & _ & _ & _ & _). 
    assert (EN : forall i j, mnth (mm guu (GeoUtilsSpec.sch_cov 10 (PI / 2))) i j = mnth id4 i j) by (intros; rewrite HI; reflexivity).
    unfold barrier. rewrite sin_PI2, cos_PI2.
    assert (G00 := EN 0%nat 0%nat). assert (G03 := EN 0%nat 3%nat). assert (G30 := EN 3%nat 0%nat). assert (G33 := EN 3%nat 3%nat).
    destruct guu as [[a00 a01 a02 a03] [a10 a11 a12 a13] [a20 a21 a22 a23] [a30 a31 a32 a33]].
    unfold mm, GeoUtilsSpec.sch_cov, id4, delta4, q4tab, mnth, sum4 in G00, G03, G30, G33. cbn in G00, G03, G30, G33. unfold dot in *. cbn in G00, G03, G30, G33. rewrite !sin_PI2 in *. 
    unfold quad, dot, mv in HQ. cbn in HQ. unfold dot in HQ. cbn in HQ.
    assert (a00 = -5/4) by lra. assert (a03 = 0) by lra. assert (a30 = 0) by lra. assert (a33 = 1/100) by lra. subst. assert (E * E = 1) by lra. split; [lra|]. split; [lra|]. split; [lra|]. split; [lra|]. nra.
  - assert (H : 2 * Ham schE (mkQ4 0 10 (PI / 2) 0) (mkQ4 (-1) 0 0 5) = -1).
    { destruct hole_sch as [(_ & _ & D) _]. assert (M := D 0 10 (PI / 2) 0). unfold SigmaS, DeltaS in M. rewrite sin_PI2, cos_PI2 in M. destruct M as [M _]; [lra|lra|lra|].
      rewrite (hole_ham schE 0 0 hole_sch _ _ M). cbn [GeoUtilsProofs.mk4 c1 c2]. rewrite kn_separated; unfold SigmaS, DeltaS; rewrite ?sin_PI2, ?cos_PI2; cbn [c0 c1 c2 c3]; [field|lra|lra|lra]. }
    unfold barred. rewrite H. unfold radial, carter, DeltaS. cbn [c0 c1 c2 c3]. rewrite sin_PI2, cos_PI2. split; [lra|]. split; [lra|]. split; [lra|]. split; lra.
Qed.
(** SI, c = G = M = 1: a body at r = 10 with angular velocity 1/20, a hole of spin 1/2: barrier at r = 4 *)
Example C127_nonvacuous_si : let o := wit 1 1 NKerrNewman (1/2) 1 0 in let x := mkQ4 0 10 (PI / 2) 0 in let v := mkQ4 0 0 0 (1/20) in
  exists g w, kn_cov 1 1 1 o (si_position 1 x) = Ok g /\ 0 < mnth g 0 0 /\ norm2 g (four_vel 0 v) < 1 ^ 2 /\ timelike_lift 1 g v w /\
  barred_si 1 (sch_rad 1 1 o) (al_of 1 1 o) 4 (si_position 1 x) g (four_vel w v) /\ 0 < q_val (mo_M o) /\ q_val (mo_q o) = 0.
Proof.
  intros o x v. assert (HS : sin (c2 x) = 1) by (unfold x; cbn [c2]; apply sin_PI2). assert (HC : cos (c2 x) = 0) by (unfold x; cbn [c2]; apply cos_PI2). assert (PP := PI_RGT_0).
  assert (X1 : c1 (si_position 1 x) = 10) by reflexivity. assert (X2 : c2 (si_position 1 x) = c2 x) by reflexivity.
  assert (AL : al_of 1 1 o = 1/2) by (unfold o; apply wit_al; lra). assert (RS : sch_rad 1 1 o = 2) by (unfold o; apply wit_rs; lra).
  assert (DK : bl_dom 1 1 o (si_position 1 x)).
  { split; [reflexivity|]. split; [unfold valid_spin, o, wit; cbn [mo_a q_val]; lra|]. rewrite AL, RS. unfold sg_of, dl_of. rewrite X1, X2, HC. split; lra. }
  assert (SG : sg_of (1/2) 10 (c2 x) = 100) by (unfold sg_of; rewrite HC; lra). assert (DL : dl_of 2 (1/2) 10 = 321/4) by (unfold dl_of; lra).
  assert (E : kn_cov 1 1 1 o (si_position 1 x) = Ok (kn_g 1 (1/2) 100 (321/4) 10 (c2 x))) by (rewrite kn_cov_eq by apply DK; rewrite AL, RS, X1, X2, SG, DL; reflexivity).
  set (g := kn_g 1 (1/2) 100 (321/4) 10 (c2 x)) in *.
  assert (W : 0 < mnth g 0 0 /\ norm2 g (four_vel 0 v) < 1 ^ 2).
  { unfold g, kn_g, four_vel, norm2, dot, mv, mnth, q4map, v. cbn [q4nth c0 c1 c2 c3]. unfold dot. cbn [q4nth c0 c1 c2 c3]. rewrite HS. split; lra. }
  assert (Hs : sin (c2 x) <> 0) by lra.
  destruct (FloatFlow.kn_flow 0 1 1 1 1 o x v g (Rle_refl 0) Rle_0_1 Rlt_0_1 Rlt_0_1 Rlt_0_1 E (proj1 W) Hs (proj2 W)) as (w & TL & _).
  exists g, w. split; [exact E|]. split; [apply W|]. split; [apply W|]. split; [exact TL|]. split; [|split; [unfold o, wit; cbn [mo_M q_val]; lra|reflexivity]].
  destruct TL as (_ & Pw & N).
  assert (L0 : low 0 g (four_vel w v) = 4/5 * w + 1/200) by (unfold low, sum4, g, kn_g, four_vel, mnth, v; cbn [q4nth c0 c1 c2 c3]; rewrite ?HS; lra).
  assert (L2 : low 2 g (four_vel w v) = 0) by (unfold low, sum4, g, kn_g, four_vel, mnth, v; cbn [q4nth c0 c1 c2 c3]; rewrite ?HS; lra).
  assert (L3 : low 3 g (four_vel w v) = w / 10 - 1003/200) by (unfold low, sum4, g, kn_g, four_vel, mnth, v; cbn [q4nth c0 c1 c2 c3]; rewrite ?HS; lra).
  assert (NN : norm2 g (four_vel w v) = 4/5 * (w * w) + w / 100 - 1003/4000).
  { unfold g, kn_g, four_vel, norm2, dot, mv, mnth, q4map, v. cbn [q4nth c0 c1 c2 c3]. unfold dot. cbn [q4nth c0 c1 c2 c3]. rewrite HS. lra. }
  assert (NE : 4/5 * (w * w) + w / 100 - 1003/4000 = 1) by (rewrite <- NN, N; ring). assert (w < 5/4) by nra. assert (6/5 < w) by nra.
  unfold barred_si, radial_si, carter_si. rewrite AL, RS, L0, L2, L3, N, X1, X2, HS, HC. unfold dl_of. split; [lra|]. split; [lra|]. split; [unfold x; cbn [c2]; lra|]. split; [lra|]. nra.
Qed.
