(** Properties C118, C119, C120, C121: from SI coordinates to the trajectory in floating point.
   [fenv], [good K u e], [near4 d], [rounded8], [sch_covA e ..], [sch_fA e ..], .., [moves f_vec X W t]: see P_FloatMetric.v.
   x = (t, x1, x2, x3) and v = (_, v1, v2, v3): the SI values of the coordinates and of the 3-velocity (c0 v is not used).
   [four_velA e c cov x v]: position() and velocity(metric) in the arithmetic of e; [si_position c x] = (c t, x1, x2, x3); [four_vel w v] = (w, v1, v2, v3);
   [norm2 g v] = g(v, v); [timelike_lift c g v w]: utils.v0 in exact arithmetic returns w, w > 0 and g(four_vel w v, four_vel w v) = c^2.
   [flowA e c cov f x v tb h k]: position, 4-velocity, then k steps of size h of RK4naive on f from affine parameter 0.
   [flow_rounded K Kin c covE fE x v X W T]: there are C and r > 0 such that for all u, e with good K u e, x' and v' within Kin u of x and v, steps h <= r with u / h <= r, and k <= N with N h <= T,
   flowA succeeds and its time, position and velocity are within C (h^4 + u / h) of k h, X (k h) and W (k h).
   [kept .. T Q q0]: along the same runs the metric exists at the computed position and |Q g velocity - q0| <= C (h^4 + u / h). [low mu g v]: component mu of the lowered velocity. *)
From Coq Require Import String Reals List ZArith Lra Lia Bool.
From Coquelicot Require Import Coquelicot.
From Verif Require Import Base Calc DualModel GeoUtilsModel CoordModel ConvModel ConvProofs2 MetricModel MetricSpec MetricProofs MetricProofs2 MetricProofs3 MetricProofs5 MetricHamilton2 FloatModel FloatRK FloatRKG FloatMetricModel FloatMetric FloatMetric6 FloatVel FloatFlow FloatInv CoordProofs3 FloatCoordModel FloatCoord FloatCoordMain FloatCart.
Import ListNotations.
Open Scope R_scope.

(** ---- C118 ---- *)
@thm C118_schwarzschild FloatFlow.sch_velocity -- wherever the metric exists, g_tt > 0 and the spatial velocity is below the speed of light, the 4-velocity computed in floating point is within C u of the future-directed one of norm c^2
@thm C118_kerr FloatFlow.kerr_velocity
@thm C118_kerr_newman FloatFlow.kn_velocity
(** a moving body at r = 4, theta = pi/2 outside a Schwarzschild hole of mass 1 and a rotating one *)
Example C118_nonvacuous : let x := mkQ4 0 4 (PI / 2) 0 in let v := mkQ4 0 (1/10) 0 (1/20) in
  (exists g, sch_cov 1 1 (mkmobj NSchwarzschild Sph (mkqty 1 1 DMass) (mkqty 0 1 DOne) (mkqty 0 1 DCharge) (mkqty 0 1 DOne)) (si_position 1 x) = Ok g /\ 0 < mnth g 0 0 /\ sin (c2 x) <> 0 /\ norm2 g (four_vel 0 v) < 1 ^ 2) /\
  (exists g, kn_cov 1 1 1 (wit 1 1 NKerrNewman (1/2) 1 (1/3)) (si_position 1 x) = Ok g /\ 0 < mnth g 0 0 /\ sin (c2 x) <> 0 /\ norm2 g (four_vel 0 v) < 1 ^ 2) /\
  (exists g, kerr_cov 1 1 1 (wit 1 1 NKerr (1/2) 0 0) (si_position 1 x) = Ok g /\ 0 < mnth g 0 0 /\ sin (c2 x) <> 0 /\ norm2 g (four_vel 0 v) < 1 ^ 2).
Proof.
  intros x v. assert (HS : sin (c2 x) = 1) by (unfold x; cbn [c2]; apply sin_PI2). assert (HC : cos (c2 x) = 0) by (unfold x; cbn [c2]; apply cos_PI2).
  assert (X1 : c1 (si_position 1 x) = 4) by reflexivity. assert (X2 : c2 (si_position 1 x) = c2 x) by reflexivity.
  assert (DK : forall n Q q, bl_dom 1 1 (wit 1 1 n (1/2) Q q) (si_position 1 x)).
  { intros n Q q. split; [reflexivity|]. split; [unfold valid_spin, wit; cbn [mo_a q_val]; lra|]. rewrite wit_al, wit_rs by lra. unfold sg_of, dl_of. rewrite X1, X2, HC. split; lra. }
  assert (SG : sg_of (1/2) 4 (c2 x) = 16) by (unfold sg_of; rewrite HC; lra). assert (DL : dl_of 2 (1/2) 4 = 33/4) by (unfold dl_of; lra).
  split; [|split].
  - set (os := mkmobj NSchwarzschild _ _ _ _ _). assert (RS : sch_rad 1 1 os = 2) by (unfold sch_rad, schwarzschild_radius, os; cbn [prim mo_M q_val]; lra).
    assert (Eg : sch_cov 1 1 os (si_position 1 x) = Ok (sch_g 1 2 4 (c2 x))).
    { unfold sch_cov. cbn [mo_sys os]. rewrite RS, X1, X2. apply finite_if_ok. repeat constructor; lra. }
    eexists. split; [exact Eg|]. unfold sch_g, four_vel, norm2, dot, mv, mnth, v. cbn. unfold dot. cbn. fold (c2 x). change (PI / 2) with (c2 x). rewrite HS. split; [lra|]. split; [lra|]. lra.
  - rewrite kn_cov_eq by apply DK. eexists. split; [reflexivity|]. rewrite wit_al, wit_rs by lra. rewrite X1, X2, SG, DL. unfold kn_g, four_vel, norm2, dot, mv, mnth, q4map, v. cbn [q4nth c0 c1 c2 c3]. unfold dot. cbn [q4nth c0 c1 c2 c3]. rewrite HS. split; [lra|]. split; [lra|]. lra.
  - rewrite kerr_cov_eq by apply DK. eexists. split; [reflexivity|]. rewrite wit_al, wit_rs by lra. rewrite X1, X2, SG, DL. unfold kerr_g, four_vel, norm2, dot, mv, mnth, q4map, v. cbn [q4nth c0 c1 c2 c3]. unfold dot. cbn [q4nth c0 c1 c2 c3]. rewrite HS. split; [lra|]. split; [lra|]. lra.
Qed.

(** ---- C119 ---- *)
@thm C119_schwarzschild FloatFlow.sch_flow -- a motion from that position and 4-velocity exists, and every such motion is followed
@thm C119_kerr FloatFlow.kerr_flow
@thm C119_kerr_newman FloatFlow.kn_flow -- charged particles included
(** the start of C118 *)
Example C119_nonvacuous : exists w T X W, 0 < w /\ 0 < T /\ X 0 = mkQ4 (1 * 0) 4 (PI / 2) 0 /\ W 0 = mkQ4 w (1/10) 0 (1/20) /\
  flow_rounded 0 1 1 (fun e => kn_covA e 1 1 1 (wit 1 1 NKerrNewman (1/2) 1 (1/3))) (fun e => kn_fA e 1 1 1 (wit 1 1 NKerrNewman (1/2) 1 (1/3))) (mkQ4 0 4 (PI / 2) 0) (mkQ4 0 (1/10) 0 (1/20)) X W T.
Proof.
  destruct C118_nonvacuous as (_ & (g & E & H0 & Hs & Hn) & _).
  destruct (C119_kerr_newman 0 1 1 1 1 _ _ _ g (Rle_refl 0) Rle_0_1 Rlt_0_1 Rlt_0_1 Rlt_0_1 E H0 Hs Hn) as (w & (_ & Pw & _) & (T & X & W & HT & X0 & W0 & M) & F).
  exists w, T, X, W. split; [exact Pw|]. split; [exact HT|]. split; [exact X0|]. split; [exact W0|]. apply F; assumption.
Qed.

(** ---- C120 ---- *)
@thm C120_schwarzschild FloatInv.sch_kept -- the norm c^2 of the velocity, the energy and the axial angular momentum
@sthm C120_kerr_newman FloatInv.kn_kept | forall (c G Cc : R) (o : mobj), 0 < c -> | exact FloatInv.kn_kept. | uncharged particles
@sthm C120_kerr_energy FloatInv.kerr_kept | forall (c G Cc : R) (o : mobj), 0 < c -> | exact FloatInv.kerr_kept. | the Kerr class keeps the energy; its norm and angular momentum drift already in exact arithmetic (C39, C95)
Example C120_nonvacuous : let o := mkmobj NSchwarzschild Sph (mkqty 1 1 DMass) (mkqty 0 1 DOne) (mkqty 0 1 DCharge) (mkqty 0 1 DOne) in exists T, 0 < T /\
  kept 0 1 1 (fun e => sch_covA e 1 1 o) (fun e => sch_fA e 1 1 o) (sch_cov 1 1 o) (mkQ4 0 4 (PI / 2) 0) (mkQ4 0 (1/10) 0 (1/20)) T norm2 (1 ^ 2).
Proof.
  intros o. destruct C118_nonvacuous as ((g & E & H0 & Hs & Hn) & _).
  destruct (C119_schwarzschild 0 1 1 1 _ _ _ g (Rle_refl 0) Rle_0_1 Rlt_0_1 Rlt_0_1 E H0 Hs Hn) as (w & TL & (T & X & W & HT & X0 & W0 & M) & _).
  exists T. split; [exact HT|]. apply (C120_schwarzschild 0 1 1 1 o _ _ g w X W T (Rle_refl 0) Rle_0_1 Rlt_0_1 Rlt_0_1 E H0 Hn TL HT X0 W0 M).
Qed.

(** ---- C121 ----
   p = (t, x, y, z) and v: the SI values of the Cartesian position and velocity; al: BaseMetric.alpha(M, a); [cart_to_sph], [cart_to_bl], ..: the conversions in exact arithmetic (C19, C20);
   [to_sph], [to_bl]: the conversions in floating point (C113), [accurate2 u B]: their arithmetic; [lift3 w]: the 3-velocity as an argument of [four_vel].
   [cart_flowA B e conv c cov f p v al tb h k]: convert, then [flowA]; [cart_rounded K Kin .. p v al X W T]: as [flow_rounded], for Cartesian inputs within Kin u of p, v, al. *)
@thm C121_schwarzschild FloatCart.sch_cart -- off the z axis and off the cut of arctan2
@sthm C121_kerr FloatCart.kerr_cart | forall (K Kin c G Cc : R) (o : mobj) (p : V4) (v : V3) (al : R) (s : V4) (w' : V3) (g : M4), 0 <= K -> 0 <= Kin -> 0 < c -> c1 p <> 0 -> off_cut p -> 0 < bl_r (c1 p) (c2 p) (c3 p) al -> cart_to_bl (c0 p) (c1 p) (c2 p) (c3 p) al = Ok s -> cart_to_bl_vel (c1 p) (c2 p) (c3 p) al (v1 v) (v2 v) (v3 v) = Ok w' -> | exact FloatCart.kerr_cart. | in Boyer-Lindquist coordinates, off the plane x = 0 where the conversion divides by zero
@sthm C121_kerr_newman FloatCart.kn_cart | forall (K Kin c G Cc : R) (o : mobj) (p : V4) (v : V3) (al : R) (s : V4) (w' : V3) (g : M4), 0 <= K -> 0 <= Kin -> 0 < c -> c1 p <> 0 -> off_cut p -> 0 < bl_r (c1 p) (c2 p) (c3 p) al -> cart_to_bl (c0 p) (c1 p) (c2 p) (c3 p) al = Ok s -> cart_to_bl_vel (c1 p) (c2 p) (c3 p) al (v1 v) (v2 v) (v3 v) = Ok w' -> | exact FloatCart.kn_cart. | charged particles included
(** x = 25/8 in the equatorial plane of a hole of spin 7/8: r = 3 *)
Example C121_nonvacuous : let p := mkQ4 0 (25/8) 0 0 in let v := mk3 (12/125) (5/64) 0 in let o := wit 1 1 NKerrNewman (7/8) 1 (1/3) in let s := mkQ4 0 3 (PI / 2) 0 in let w := mk3 (1/10) 0 (1/40) in
  off_cut p /\ 0 < bl_r (c1 p) (c2 p) (c3 p) (7/8) /\ cart_to_bl (c0 p) (c1 p) (c2 p) (c3 p) (7/8) = Ok s /\ cart_to_bl_vel (c1 p) (c2 p) (c3 p) (7/8) (v1 v) (v2 v) (v3 v) = Ok w /\
  exists g, kn_cov 1 1 1 o (si_position 1 s) = Ok g /\ 0 < mnth g 0 0 /\ norm2 g (four_vel 0 (lift3 w)) < 1 ^ 2.
Proof.
  intros p v o s w. assert (S9 : forall y x, 0 <= x -> x * x = y -> sqrt y = x) by (intros y x Hx <-; apply sqrt_square; exact Hx).
  assert (SW : sqrt ((((25/8) ^ 2 + 0 ^ 2 + 0 ^ 2) - (7/8) ^ 2) ^ 2 + 4 * (7/8) ^ 2 * 0 ^ 2) = 9) by (apply S9; lra).
  assert (BR : bl_r (25/8) 0 0 (7/8) = 3). { unfold bl_r, bl_w. rewrite SW. apply S9; lra. }
  split; [left; cbn; lra|]. split; [cbn [c1 c2 c3 p]; rewrite BR; lra|]. split; [|split].
  - unfold cart_to_bl, p. cbn [c0 c1 c2 c3]. rewrite BR. unfold np_div. destruct (Req_EM_T 3 0) as [Z|_]; [lra|]. cbn [bindR]. replace (0 / 3) with 0 by lra. unfold np_arccos. destruct (Rle_dec (-1) 0) as [_|N]; [|lra]. destruct (Rle_dec 0 1) as [_|N]; [|lra]. cbn [bindR]. rewrite acos_0. unfold s. do 2 f_equal. unfold atan2. destruct (Rlt_dec 0 (25/8)) as [_|N]; [|lra]. replace (0 / (25/8)) with 0 by lra. apply atan_0.
  - unfold cart_to_bl_vel, p, v. cbn [c1 c2 c3 v1 v2 v3]. rewrite BR. unfold bl_w. rewrite SW. unfold np_div, np_sqrt.
    repeat (match goal with |- context [Req_EM_T ?a ?b] => destruct (Req_EM_T a b) as [?Z|_]; [exfalso; lra|] | |- context [Rle_dec ?a ?b] => destruct (Rle_dec a b) as [_|?N]; [|exfalso; lra] | |- context [sqrt ?a] => replace (sqrt a) with 1 by (symmetry; apply S9; lra) end; cbn [bindR]).
    unfold w. apply f_equal. f_equal; lra.
  - assert (HS : sin (c2 s) = 1) by (unfold s; cbn [c2]; apply sin_PI2). assert (HC : cos (c2 s) = 0) by (unfold s; cbn [c2]; apply cos_PI2).
    assert (X1 : c1 (si_position 1 s) = 3) by reflexivity. assert (X2 : c2 (si_position 1 s) = c2 s) by reflexivity.
    assert (DK : bl_dom 1 1 o (si_position 1 s)).
    { split; [reflexivity|]. split; [unfold valid_spin, o, wit; cbn [mo_a q_val]; lra|]. unfold o. rewrite wit_al, wit_rs by lra. unfold sg_of, dl_of. rewrite X1, X2, HC. split; lra. }
    assert (SG : sg_of (7/8) 3 (c2 s) = 9) by (unfold sg_of; rewrite HC; lra). assert (DL : dl_of 2 (7/8) 3 = 241/64) by (unfold dl_of; lra).
    rewrite kn_cov_eq by apply DK. eexists. split; [reflexivity|]. unfold o. rewrite wit_al, wit_rs by lra. rewrite X1, X2, SG, DL. unfold kn_g, four_vel, norm2, dot, mv, mnth, q4map, lift3, w. cbn [q4nth c0 c1 c2 c3 v1 v2 v3]. unfold dot. cbn [q4nth c0 c1 c2 c3]. rewrite HS. split; [lra|]. lra.
Qed.
