(** Property C126: Carter's constant and the angular momentum vector of the metric classes.
   SI coordinates x = (c t, r, theta, phi); g the metric_covariant at x, signature (+ - - -); v the 4-velocity; [low mu g v] = g_(mu nu) v^nu; [norm2 g v] = g(v, v);
   [al_of c G o] = a G M / c^2; [moves f_vec X W t]: X' = W and W' is the second half of f_vec at (X, W); q_val (mo_q o) = 0: the particle has no charge.
   [carter_si c al x g v] = v_theta^2 + (al sin(theta) v_t / c + v_phi / sin(theta))^2 + al^2 cos(theta)^2 g(v, v), indices lowered by g;
   [Lx_si], [Ly_si]: - sin(phi) v_theta - cos(phi) cot(theta) v_phi and cos(phi) v_theta - sin(phi) cot(theta) v_phi; the third component is v_phi.
   [kept_at .. cov x v T Q q0]: along the runs of [flow_rounded] (P_FloatFlow.v), the metric g exists at the computed position and |Q position g velocity - q0| <= C (h^4 + u / h).
   [ray x]: Cartesian direction (sin theta cos phi, sin theta sin phi, cos theta). *)
From Coq Require Import String Reals List ZArith Lra Lia Bool.
From Coquelicot Require Import Coquelicot.
From Verif Require Import Base Calc DualModel GeoUtilsModel CoordModel ConvModel ConvProofs2 MetricModel MetricSpec MetricProofs MetricProofs2 MetricProofs3 MetricProofs5 MetricUnify MetricHamilton2 FloatModel FloatRK FloatRKG FloatPlane FloatMetricModel FloatMetric FloatMetric6 FloatVel FloatFlow FloatInv MetricCarter FloatConst.
Import ListNotations.
Open Scope R_scope.

(** ---- C126 ---- *)
@thm C126_carter_exact MetricCarter.kn_carter_constant -- Kerr-Newman holes of any spin and charge
@thm C126_angular_momentum_exact MetricCarter.kn_angular_constant -- no spin
@thm C126_angular_momentum_schwarzschild MetricCarter.sch_angular_constant
@thm C126_plane MetricCarter.ray_perp_si -- so the orbit stays in the plane through the centre perpendicular to the vector
@thm C126_kerr_newman FloatConst.kn_carter_kept -- through velocity(metric) and RK4naive in arithmetic of unit roundoff u
@thm C126_schwarzschild FloatConst.sch_angular_kept
(** bodies with velocity (1/10, 1/20, 1/20) at r = 4, theta = pi/2: outside a hole of spin 1/2 and charge 1, and a Schwarzschild hole where L_y = -4/5 *)
Example C126_nonvacuous : let x := mkQ4 0 4 (PI / 2) 0 in let v := mkQ4 0 (1/10) (1/20) (1/20) in
  (let o := wit 1 1 NKerrNewman (1/2) 1 0 in exists T q0, 0 < T /\ kept_at 0 1 1 (fun e => kn_covA e 1 1 1 o) (fun e => kn_fA e 1 1 1 o) (kn_cov 1 1 1 o) x v T (carter_si 1 (al_of 1 1 o)) q0) /\
  (let o := mkmobj NSchwarzschild Sph (mkqty 1 1 DMass) (mkqty 0 1 DOne) (mkqty 0 1 DCharge) (mkqty 0 1 DOne) in exists T, 0 < T /\ kept_at 0 1 1 (fun e => sch_covA e 1 1 o) (fun e => sch_fA e 1 1 o) (sch_cov 1 1 o) x v T Ly_si (- (4/5))).
Proof.
  intros x v. assert (HS : sin (c2 x) = 1) by (unfold x; cbn [c2]; apply sin_PI2). assert (HC : cos (c2 x) = 0) by (unfold x; cbn [c2]; apply cos_PI2).
  assert (X1 : c1 (si_position 1 x) = 4) by reflexivity. assert (X2 : c2 (si_position 1 x) = c2 x) by reflexivity. split; intros o.
  - assert (DK : bl_dom 1 1 o (si_position 1 x)).
    { split; [reflexivity|]. split; [unfold valid_spin, o, wit; cbn [mo_a q_val]; lra|]. unfold o. rewrite wit_al, wit_rs by lra. unfold sg_of, dl_of. rewrite X1, X2, HC. split; lra. }
    assert (SG : sg_of (1/2) 4 (c2 x) = 16) by (unfold sg_of; rewrite HC; lra). assert (DL : dl_of 2 (1/2) 4 = 33/4) by (unfold dl_of; lra).
    assert (W : exists g, kn_cov 1 1 1 o (si_position 1 x) = Ok g /\ 0 < mnth g 0 0 /\ sin (c2 x) <> 0 /\ norm2 g (four_vel 0 v) < 1 ^ 2).
    { rewrite kn_cov_eq by apply DK. eexists. split; [reflexivity|]. unfold o. rewrite wit_al, wit_rs by lra. rewrite X1, X2, SG, DL. unfold kn_g, four_vel, norm2, dot, mv, mnth, q4map, v. cbn [q4nth c0 c1 c2 c3]. unfold dot. cbn [q4nth c0 c1 c2 c3]. rewrite HS. split; [lra|]. split; [lra|]. lra. }
    destruct W as (g & E & H0 & Hs & Hn).
    destruct (FloatFlow.kn_flow 0 1 1 1 1 o x v g (Rle_refl 0) Rle_0_1 Rlt_0_1 Rlt_0_1 Rlt_0_1 E H0 Hs Hn) as (w & TL & (T & X & W & HT & X0 & W0 & M) & _).
    exists T. eexists. split; [exact HT|]. refine (proj1 (C126_kerr_newman 0 1 1 1 1 o x v g w X W T (Rle_refl 0) Rle_0_1 Rlt_0_1 Rlt_0_1 Rlt_0_1 _ eq_refl E H0 Hn TL HT X0 W0 M)). unfold o, wit; cbn [mo_M q_val]; lra.
  - assert (RS : sch_rad 1 1 o = 2) by (unfold sch_rad, schwarzschild_radius, o; cbn [prim mo_M q_val]; lra).
    assert (E : sch_cov 1 1 o (si_position 1 x) = Ok (sch_g 1 2 4 (c2 x))).
    { unfold sch_cov. cbn [mo_sys o]. rewrite RS, X1, X2. apply finite_if_ok. repeat constructor; lra. }
    set (g := sch_g 1 2 4 (c2 x)) in *.
    assert (H : 0 < mnth g 0 0 /\ norm2 g (four_vel 0 v) < 1 ^ 2) by (unfold g, sch_g, four_vel, norm2, dot, mv, mnth, v; cbn; unfold dot; cbn; fold (c2 x); change (PI / 2) with (c2 x); rewrite HS; split; lra).
    assert (Hs : sin (c2 x) <> 0) by lra.
    destruct (FloatFlow.sch_flow 0 1 1 1 o x v g (Rle_refl 0) Rle_0_1 Rlt_0_1 Rlt_0_1 E (proj1 H) Hs (proj2 H)) as (w & TL & (T & X & W & HT & X0 & W0 & M) & _).
    exists T. split; [exact HT|]. assert (HM : q_val (mo_M o) <> 0) by (unfold o; cbn; lra).
    assert (K := proj2 (C126_schwarzschild 0 1 1 1 o x v g w X W T (Rle_refl 0) Rle_0_1 Rlt_0_1 Rlt_0_1 HM E (proj1 H) (proj2 H) TL HT X0 W0 M)).
    replace (Ly_si (si_position 1 x) g (four_vel w v)) with (- (4/5)) in K; [exact K|].
    unfold Ly_si, low, sum4. unfold g, sch_g, mnth, four_vel, si_position, x, v. cbn [q4nth c0 c1 c2 c3]. rewrite cos_0, sin_0. lra.
Qed.
